(** Proofs about the ciphertext operations. Everything is reduced to the
    points at which the NTT evaluates: at point j a ciphertext is the list of
    the values of its components and its phase is a Horner sum. *)
From Coq Require Import Arith Znumtheory.
From Verif Require Import Base FinSum PolySpec Ring Montgomery MontBatch Ntt Poly PolyExt MontgomeryProofs
  MontBatchProofs NttIndex NttMath NttProofs Spec PolyView ArithFacts NttFacts PolyProofs PolyFacts SymEnc SymSpec.
Local Notation zsum := FinSum.zsum.

(** ** Rings *)

Lemma peval_npow m n s x i : (0 < n)%nat -> cong m (x ^ Z.of_nat n) (-1) ->
  cong m (peval n (npow n s i) x) (peval n s x ^ Z.of_nat i).
Proof.
  intros Hn Hx. induction i as [|i IH]; cbn [npow].
  - rewrite peval_const by exact Hn. reflexivity.
  - rewrite peval_negacyclic by exact Hx. rewrite IH, Nat2Z.inj_succ, Z.pow_succ_r by lia.
    apply cong_eq. ring.
Qed.

Lemma peval_phase m n s num cs x : (0 < n)%nat -> cong m (x ^ Z.of_nat n) (-1) ->
  cong m (peval n (phase n s num cs) x)
    (zsum num (fun i => peval n (cs i) x * peval n s x ^ Z.of_nat i)).
Proof.
  intros Hn Hx. unfold phase. rewrite (peval_zsum n num (fun i k => negacyclic n (cs i) (npow n s i) k)).
  apply zsum_cong. intros i Hi. change (fun i0 => negacyclic n (cs i) (npow n s i) i0) with (negacyclic n (cs i) (npow n s i)).
  rewrite peval_negacyclic by exact Hx. rewrite peval_npow by assumption. reflexivity.
Qed.

Section Ops.
Variables (p : mparams) (L : nat) (np : nttp).
Hypothesis C : ctx p L np.
Local Notation m := (p_m p).
Local Notation n := (2 ^ L)%nat.
Local Notation X := (ntt_root p np).
Local Notation ev := (ev L X).
Local Notation holds := (holds p).
Local Notation val := (val p).
Let G : good p := proj1 C.
Let NG : ntt_good p L np X := proj2 C.
Let M1 : 1 < m := m_gt1 p G.

Lemma n_pos' : (0 < n)%nat.
Proof. apply (n_pos L). Qed.

(** the value at point j *)
Definition at_ (j : nat) (a : poly) : Z := val (nth j a 0).

(** the Horner sum of the components at point j *)
Fixpoint hv (w : Z) (j : nat) (cs : list poly) : Z :=
  match cs with [] => 0 | c :: cs' => at_ j c + w * hv w j cs' end.

Lemma hv_app w j cs ds : hv w j (cs ++ ds) = hv w j cs + w ^ Z.of_nat (length cs) * hv w j ds.
Proof.
  induction cs as [|c cs IH]; cbn [hv app length]; [rewrite Z.pow_0_r; ring|].
  rewrite IH, Nat2Z.inj_succ, Z.pow_succ_r by lia. ring.
Qed.

Lemma hv_sum w j cs : hv w j cs = zsum (length cs) (fun i => at_ j (nth i cs []) * w ^ Z.of_nat i).
Proof.
  induction cs as [|c cs IH]; [reflexivity|]. cbn [hv length]. rewrite zsum_first, IH, <- zsum_mul_l.
  cbn [nth]. change (Z.of_nat 0) with 0. rewrite Z.pow_0_r, Z.mul_1_r. f_equal. apply zsum_ext. intros i Hi.
  rewrite Nat2Z.inj_succ, Z.pow_succ_r by lia. ring.
Qed.

Lemma hv_w w w' j cs : cong m w w' -> cong m (hv w j cs) (hv w' j cs).
Proof. intros H. induction cs as [|c cs IH]; [reflexivity|]. cbn [hv]. rewrite IH, H. reflexivity. Qed.

(** relation "the components cs have noisy plaintext f under the secret s" *)
Definition pcarries (s : nat -> Z) (cs : list poly) (f : nat -> Z) : Prop :=
  forall i, (i < n)%nat -> cong m (phase n s (length cs) (fun l => coeff p np (nth l cs [])) i) (f i).

Lemma coeff_at a j : ntt_poly p L a -> (j < n)%nat -> cong m (at_ j a) (ev (coeff p np a) j).
Proof. intros Ha Hj. apply (holds_val p n a _ j (poly_holds p L np C a Ha) Hj). Qed.

Lemma phase_ev s cs j : Forall (ntt_poly p L) cs -> (j < n)%nat ->
  cong m (ev (phase n s (length cs) (fun l => coeff p np (nth l cs []))) j) (hv (ev s j) j cs).
Proof.
  intros Hc Hj. unfold ev at 1. rewrite peval_phase by (apply n_pos' || apply (point_root p L np X NG)).
  rewrite hv_sum. apply zsum_cong. intros i Hi. rewrite Forall_forall in Hc.
  rewrite (coeff_at (nth i cs []) j) by (try exact Hj; apply Hc, nth_In, Hi). reflexivity.
Qed.

Lemma pcarries_iff s cs f : Forall (ntt_poly p L) cs ->
  (pcarries s cs f <-> forall j, (j < n)%nat -> cong m (hv (ev s j) j cs) (ev f j)).
Proof.
  intros Hc. split.
  - intros H j Hj. rewrite <- (phase_ev s cs j Hc Hj). apply ev_cong. exact H.
  - intros H. unfold pcarries. apply (ev_inj p G L np X NG). intros j Hj. rewrite (phase_ev s cs j Hc Hj). apply H, Hj.
Qed.

(** ** Loops *)

Lemma holds_of a : ntt_poly p L a -> holds n a (fun j => at_ j a).
Proof. intros [La Ra]. apply holds_self; assumption. Qed.

Lemma of_holds a F : holds n a F -> ntt_poly p L a /\ forall j, (j < n)%nat -> cong m (at_ j a) (F j).
Proof. intros (La & Ra & Va). split; [split; assumption|]. exact Va. Qed.

(** a binary operation on polynomials computing [op] pointwise *)
Definition pointwise2 (f : poly -> poly -> result poly) (op : nat -> Z -> Z -> Z) : Prop :=
  forall a b, ntt_poly p L a -> ntt_poly p L b ->
  exists c, f a b = Ok c /\ ntt_poly p L c /\ forall j, (j < n)%nat -> cong m (at_ j c) (op j (at_ j a) (at_ j b)).
Definition pointwise1 (f : poly -> result poly) (op : nat -> Z -> Z) : Prop :=
  forall a, ntt_poly p L a ->
  exists c, f a = Ok c /\ ntt_poly p L c /\ forall j, (j < n)%nat -> cong m (at_ j c) (op j (at_ j a)).

Lemma add_pw : pointwise2 (poly_add p) (fun _ => Z.add).
Proof.
  intros a b Ha Hb. destruct (add_holds p G n a b _ _ (holds_of a Ha) (holds_of b Hb)) as (c & E & Hc & _).
  exists c. split; [exact E|]. apply of_holds, Hc.
Qed.
Lemma sub_pw : pointwise2 (poly_sub p) (fun _ => Z.sub).
Proof.
  intros a b Ha Hb. destruct (sub_holds p G n a b _ _ (holds_of a Ha) (holds_of b Hb)) as (c & E & Hc & _).
  exists c. split; [exact E|]. apply of_holds, Hc.
Qed.
Lemma mul_pw b : ntt_poly p L b -> pointwise1 (fun a => poly_mul p a b) (fun j x => x * at_ j b).
Proof.
  intros Hb a Ha. destruct (mul_holds p G n a b _ _ (holds_of a Ha) (holds_of b Hb)) as (c & E & Hc & _).
  exists c. split; [exact E|]. apply of_holds, Hc.
Qed.
Lemma mul_scalar_pw s : stored p s -> pointwise1 (fun a => poly_mul_scalar p a s) (fun j x => x * export_int p s).
Proof.
  intros Hs a Ha. destruct (mul_scalar_holds p G n a _ s (export_int p s) (holds_of a Ha) Hs) as (c & E & Hc & _).
  { rewrite stored_val by (exact G || exact Hs). reflexivity. }
  exists c. split; [exact E|]. apply of_holds in Hc. destruct Hc as [Hc V]. split; [exact Hc|].
  intros j Hj. rewrite (V j Hj). apply cong_eq. ring.
Qed.
Lemma mul_constant_pw b : ntt_poly p L b ->
  pointwise1 (fun a => poly_mul_constant p a (const_of p b)) (fun j x => x * at_ j b).
Proof.
  intros Hb a Ha. destruct (mul_constant_holds p G n a b _ _ (holds_of a Ha) (holds_of b Hb)) as (c & E & Hc & _).
  exists c. split; [exact E|]. apply of_holds, Hc.
Qed.
Lemma fused_constant_pw b : ntt_poly p L b ->
  pointwise2 (fun x a => poly_fused_mul_constant_add p x a (const_of p b)) (fun j x a => x + a * at_ j b).
Proof.
  intros Hb x a Hx Ha.
  destruct (fused_constant_holds p G n x a b _ _ _ (holds_of x Hx) (holds_of a Ha) (holds_of b Hb)) as (c & E & Hc & _).
  exists c. split; [exact E|]. apply of_holds, Hc.
Qed.
Lemma fused_pw : p_k p <> 16 -> forall b, ntt_poly p L b ->
  pointwise2 (fun x a => poly_fused_mul_add p x a b) (fun j x a => x + a * at_ j b).
Proof.
  intros Hk b Hb x a Hx Ha.
  destruct (fused_defined p n x a b _ _ _ Hk (holds_of x Hx) (holds_of a Ha) (holds_of b Hb)) as (c & E).
  destruct (fused_holds p G n x a b _ _ _ c (holds_of x Hx) (holds_of a Ha) (holds_of b Hb) E) as [Hc _].
  exists c. split; [exact E|]. apply of_holds, Hc.
Qed.
(** whatever the word size: a result, if any, is right *)
Lemma fused_result x a b c : ntt_poly p L x -> ntt_poly p L a -> ntt_poly p L b ->
  poly_fused_mul_add p x a b = Ok c ->
  ntt_poly p L c /\ forall j, (j < n)%nat -> cong m (at_ j c) (at_ j x + at_ j a * at_ j b).
Proof.
  intros Hx Ha Hb E.
  destruct (fused_holds p G n x a b _ _ _ c (holds_of x Hx) (holds_of a Ha) (holds_of b Hb) E) as [Hc _].
  apply of_holds, Hc.
Qed.
Lemma fused_no_err x a b e : ntt_poly p L x -> ntt_poly p L a -> ntt_poly p L b ->
  poly_fused_mul_add p x a b <> Err e.
Proof.
  intros [Lx _] [La _] [Lb _]. unfold poly_fused_mul_add, batch_fused_mul_add.
  rewrite !same_len_true by congruence. cbn [negb orb].
  generalize (combine a b). clear. intros l. revert l. induction x as [|x0 x IH]; intros [|[y z] l]; cbn; try discriminate.
  unfold fused_mul_add at 1. unfold mul_int. destruct (_ && _); cbn; [discriminate|].
  intros H. specialize (IH l). destruct (seqr _); cbn in *; congruence.
Qed.

Lemma neg_pw a : ntt_poly p L a -> ntt_poly p L (poly_neg p a) /\
  forall j, (j < n)%nat -> cong m (at_ j (poly_neg p a)) (- at_ j a).
Proof. intros Ha. apply of_holds. apply (neg_holds p G n a _ (holds_of a Ha)). Qed.

Lemma zero_at : exists z, poly_zero p n = Ok z /\ ntt_poly p L z /\ forall j, (j < n)%nat -> cong m (at_ j z) 0.
Proof.
  exists (repeat (import_zero p) n). pose proof n_pos'. split.
  - unfold poly_zero, poly_of. destruct n; [lia|reflexivity].
  - apply of_holds. exact (zero_holds p G n).
Qed.

Lemma seqr_pw f op cs : pointwise1 f op -> Forall (ntt_poly p L) cs ->
  exists ds, seqr (map f cs) = Ok ds /\ length ds = length cs /\ Forall (ntt_poly p L) ds /\
  forall i j, (i < length cs)%nat -> (j < n)%nat -> cong m (at_ j (nth i ds [])) (op j (at_ j (nth i cs []))).
Proof.
  intros Hf Hc. induction Hc as [|c cs H Hc IH]; cbn [map seqr].
  - exists []. split; [reflexivity|]. split; [reflexivity|]. split; [constructor|]. cbn. lia.
  - destruct (Hf c H) as (d & E & Hd & V). destruct IH as (ds & Es & Ls & Hds & Vs).
    rewrite E. cbn [bind]. rewrite Es. cbn [bind]. exists (d :: ds). split; [reflexivity|].
    split; [cbn; congruence|]. split; [constructor; assumption|].
    intros [|i] j Hi Hj; cbn [nth]; [apply V, Hj|apply Vs; cbn in Hi; lia].
Qed.

Lemma seqr_hv f (c : nat -> Z) cs : pointwise1 f (fun j x => x * c j) -> Forall (ntt_poly p L) cs ->
  exists ds, seqr (map f cs) = Ok ds /\ Forall (ntt_poly p L) ds /\
  forall w j, (j < n)%nat -> cong m (hv w j ds) (hv w j cs * c j).
Proof.
  intros Hf Hc. destruct (seqr_pw f _ cs Hf Hc) as (ds & E & Ll & Hd & V). exists ds. split; [exact E|].
  split; [exact Hd|]. intros w j Hj. rewrite !hv_sum, Ll, <- zsum_mul_r. apply zsum_cong. intros i Hi.
  rewrite (V i j Hi Hj). apply cong_eq. ring.
Qed.

Lemma hv_zeros w j z k : cong m (at_ j z) 0 -> cong m (hv w j (repeat z k)) 0.
Proof. intros H. induction k as [|k IH]; cbn [repeat hv]; [reflexivity|]. rewrite H, IH. apply cong_eq. ring. Qed.

Lemma Forall_repeat {A} (P : A -> Prop) x k : P x -> Forall P (repeat x k).
Proof. intros H. apply Forall_forall. intros y Hy. apply repeat_spec in Hy. subst. exact H. Qed.

Lemma pad_ok cs ds : Forall (ntt_poly p L) cs -> Forall (ntt_poly p L) ds ->
  exists es, pad_to p cs ds = Ok es /\ (length ds <= length es)%nat /\ length es = Nat.max (length cs) (length ds) /\
  Forall (ntt_poly p L) es /\ forall w j, (j < n)%nat -> cong m (hv w j es) (hv w j cs).
Proof.
  intros Hc Hd. unfold pad_to. destruct (Nat.ltb_spec (length cs) (length ds)) as [H|H].
  - destruct ds as [|d0 ds]; [cbn in H; lia|]. unfold get. cbn [nth_error bind].
    inversion_clear Hd as [|? ? H0 H1]. rewrite (proj1 H0). destruct zero_at as (z & Ez & Hz & Vz).
    rewrite Ez. cbn [bind]. eexists. split; [reflexivity|].
    rewrite app_length, repeat_length. split; [lia|]. split; [lia|].
    split; [apply Forall_app; split; [exact Hc|apply Forall_repeat, Hz]|].
    intros w j Hj. rewrite hv_app. rewrite (hv_zeros w j z _ (Vz j Hj)). apply cong_eq. ring.
  - exists cs. split; [reflexivity|]. split; [exact H|]. split; [lia|]. split; [exact Hc|]. reflexivity.
Qed.

Lemma zip_ok f (op : Z -> Z -> Z) cs ds : pointwise2 f (fun _ => op) ->
  (forall x y w u v, op (x + w * u) (y + w * v) = op x y + w * op u v) -> (forall u, op u 0 = u) ->
  Proper (cong m ==> cong m ==> cong m) op ->
  Forall (ntt_poly p L) cs -> Forall (ntt_poly p L) ds -> (length ds <= length cs)%nat ->
  exists es, zip_into f cs ds = Ok es /\ length es = length cs /\ Forall (ntt_poly p L) es /\
  forall w j, (j < n)%nat -> cong m (hv w j es) (op (hv w j cs) (hv w j ds)).
Proof.
  intros Hf Hlin H0 Hop Hc Hd. revert cs Hc. induction Hd as [|d ds H Hd IH]; intros cs Hc Hl; cbn [zip_into].
  - exists cs. split; [reflexivity|]. split; [reflexivity|]. split; [exact Hc|]. intros w j Hj. cbn [hv]. rewrite H0. reflexivity.
  - destruct Hc as [|c cs H' Hc]; [cbn in Hl; lia|].
    destruct (Hf c d H' H) as (e & E & He & V). destruct (IH cs Hc ltac:(cbn in Hl; lia)) as (es & Es & Ls & Hes & Vs).
    rewrite E. cbn [bind]. rewrite Es. cbn [bind]. exists (e :: es). split; [reflexivity|].
    split; [cbn; congruence|]. split; [constructor; assumption|]. intros w j Hj. cbn [hv].
    rewrite Hlin. rewrite (V j Hj), (Vs w j Hj). reflexivity.
Qed.

Lemma fused_into_ok f g (b : nat -> Z) cs ds : pointwise2 f (fun j x a => x + a * b j) ->
  pointwise1 g (fun j x => x * b j) ->
  Forall (ntt_poly p L) cs -> Forall (ntt_poly p L) ds ->
  exists es, fused_into f g cs ds = Ok es /\ length es = Nat.max (length cs) (length ds) /\ Forall (ntt_poly p L) es /\
  forall w j, (j < n)%nat -> cong m (hv w j es) (hv w j cs + hv w j ds * b j).
Proof.
  intros Hf Hg Hc Hd. revert cs Hc. induction Hd as [|d ds H Hd IH]; intros cs Hc.
  - exists cs. destruct cs; cbn [fused_into]; (split; [reflexivity|]); (split; [cbn; lia|]); (split; [exact Hc|]);
      intros w j Hj; cbn [hv]; apply cong_eq; ring.
  - destruct Hc as [|c cs H' Hc]; cbn [fused_into].
    + destruct (Hg d H) as (e & E & He & V). destruct (IH [] ltac:(constructor)) as (es & Es & Ls & Hes & Vs).
      rewrite E. cbn [bind]. rewrite Es. cbn [bind]. exists (e :: es). split; [reflexivity|].
      split; [cbn in *; lia|]. split; [constructor; assumption|]. intros w j Hj. cbn [hv].
      rewrite (V j Hj), (Vs w j Hj). cbn [hv]. apply cong_eq. ring.
    + destruct (Hf c d H' H) as (e & E & He & V). destruct (IH cs Hc) as (es & Es & Ls & Hes & Vs).
      rewrite E. cbn [bind]. rewrite Es. cbn [bind]. exists (e :: es). split; [reflexivity|].
      split; [cbn in *; lia|]. split; [constructor; assumption|]. intros w j Hj. cbn [hv].
      rewrite (V j Hj), (Vs w j Hj). apply cong_eq. ring.
Qed.

(** ** Ciphertext multiplication *)

Lemma hv_upd w j y x : forall res idx, nth_error res idx = Some x ->
  hv w j (upd res idx y) = hv w j res + w ^ Z.of_nat idx * (at_ j y - at_ j x).
Proof.
  induction res as [|r res IH]; intros [|idx] E; cbn in E; try discriminate; cbn [upd hv].
  - injection E as ->. change (Z.of_nat 0) with 0. rewrite Z.pow_0_r. ring.
  - rewrite (IH idx E), Nat2Z.inj_succ, Z.pow_succ_r by lia. ring.
Qed.

Lemma upd_len {A} (x : A) : forall l i, length (upd l i x) = length l.
Proof. induction l; intros [|i]; cbn; auto. Qed.

Lemma Forall_upd {A} (P : A -> Prop) x : P x -> forall l i, Forall P l -> Forall P (upd l i x).
Proof. intros Hx. induction l; intros [|i] H; cbn; inversion_clear H; constructor; auto. Qed.

Definition fused_total : Prop := forall x a b, ntt_poly p L x -> ntt_poly p L a -> ntt_poly p L b ->
  exists r, poly_fused_mul_add p x a b = Ok r.

Lemma fused_total_k : p_k p <> 16 -> fused_total.
Proof. intros Hk x a b Hx Ha Hb. destruct (fused_pw Hk b Hb x a Hx Ha) as (c & E & _). exists c. exact E. Qed.

Lemma mul_row_val ci : ntt_poly p L ci -> forall ds idx res out, Forall (ntt_poly p L) ds -> Forall (ntt_poly p L) res ->
  mul_row p ci ds idx res = Ok out ->
  length out = length res /\ Forall (ntt_poly p L) out /\
  forall w j, (j < n)%nat -> cong m (hv w j out) (hv w j res + w ^ Z.of_nat idx * (at_ j ci * hv w j ds)).
Proof.
  intros Hci. induction ds as [|d ds IH]; intros idx res out Hd Hr E; cbn [mul_row] in E.
  - injection E as <-. split; [reflexivity|]. split; [exact Hr|]. intros w j Hj. cbn [hv]. apply cong_eq. ring.
  - inversion_clear Hd as [|? ? Hd0 Hd1]. unfold get in E. destruct (nth_error res idx) as [x|] eqn:Ex; [|discriminate].
    cbn [bind] in E. destruct (poly_fused_mul_add p x ci d) as [y| |] eqn:Ey; try discriminate. cbn [bind] in E.
    assert (Hx : ntt_poly p L x). { rewrite Forall_forall in Hr. apply Hr. eapply nth_error_In; eauto. }
    destruct (fused_result x ci d y Hx Hci Hd0 Ey) as [Hy Vy].
    destruct (IH _ _ _ Hd1 (Forall_upd _ y Hy _ _ Hr) E) as (Lo & Ho & Vo). split; [rewrite Lo; apply upd_len|].
    split; [exact Ho|]. intros w j Hj. rewrite (Vo w j Hj), (hv_upd w j y x res idx Ex), (Vy j Hj). cbn [hv].
    rewrite Nat2Z.inj_succ, Z.pow_succ_r by lia. apply cong_eq. ring.
Qed.

Lemma mul_row_ok ci : fused_total -> ntt_poly p L ci -> forall ds idx res, Forall (ntt_poly p L) ds -> Forall (ntt_poly p L) res ->
  (idx + length ds <= length res)%nat -> exists out, mul_row p ci ds idx res = Ok out.
Proof.
  intros T Hci. induction ds as [|d ds IH]; intros idx res Hd Hr Hl; cbn [mul_row]; [eexists; reflexivity|].
  inversion_clear Hd as [|? ? Hd0 Hd1]. cbn [length] in Hl. unfold get.
  destruct (nth_error res idx) as [x|] eqn:Ex; [|apply nth_error_None in Ex; lia]. cbn [bind].
  assert (Hx : ntt_poly p L x). { rewrite Forall_forall in Hr. apply Hr. eapply nth_error_In; eauto. }
  destruct (T x ci d Hx Hci Hd0) as (y & Ey). rewrite Ey. cbn [bind].
  apply IH; [exact Hd1| |rewrite upd_len; lia]. apply Forall_upd; [|exact Hr]. apply (fused_result x ci d y Hx Hci Hd0 Ey).
Qed.

Lemma mul_rows_val ds : Forall (ntt_poly p L) ds -> forall cs idx res out, Forall (ntt_poly p L) cs -> Forall (ntt_poly p L) res ->
  mul_rows p cs ds idx res = Ok out ->
  length out = length res /\ Forall (ntt_poly p L) out /\
  forall w j, (j < n)%nat -> cong m (hv w j out) (hv w j res + w ^ Z.of_nat idx * (hv w j cs * hv w j ds)).
Proof.
  intros Hd. induction cs as [|c cs IH]; intros idx res out Hc Hr E; cbn [mul_rows] in E.
  - injection E as <-. split; [reflexivity|]. split; [exact Hr|]. intros w j Hj. cbn [hv]. apply cong_eq. ring.
  - inversion_clear Hc as [|? ? Hc0 Hc1]. destruct (mul_row p c ds idx res) as [r| |] eqn:Er; try discriminate. cbn [bind] in E.
    destruct (mul_row_val c Hc0 ds idx res r Hd Hr Er) as (Lr & Hr' & Vr).
    destruct (IH _ _ _ Hc1 Hr' E) as (Lo & Ho & Vo). split; [congruence|]. split; [exact Ho|].
    intros w j Hj. rewrite (Vo w j Hj), (Vr w j Hj). cbn [hv]. rewrite Nat2Z.inj_succ, Z.pow_succ_r by lia.
    apply cong_eq. ring.
Qed.

Lemma mul_rows_ok ds : fused_total -> Forall (ntt_poly p L) ds -> forall cs idx res, Forall (ntt_poly p L) cs -> Forall (ntt_poly p L) res ->
  (cs = [] \/ idx + length cs + length ds <= length res + 1)%nat -> exists out, mul_rows p cs ds idx res = Ok out.
Proof.
  intros T Hd. induction cs as [|c cs IH]; intros idx res Hc Hr Hl; cbn [mul_rows]; [eexists; reflexivity|].
  inversion_clear Hc as [|? ? Hc0 Hc1]. destruct Hl as [Hl|Hl]; [discriminate|]. cbn [length] in Hl.
  destruct (mul_row_ok c T Hc0 ds idx res Hd Hr ltac:(lia)) as (r & Er). rewrite Er. cbn [bind].
  destruct (mul_row_val c Hc0 ds idx res r Hd Hr Er) as (Lr & Hr' & _).
  apply IH; [exact Hc1|exact Hr'|]. right. lia.
Qed.

(** ** Decryption *)

Lemma extract_loop_ok key (s : nat -> Z) : sk_p key = p -> holds n (sk_key key) s ->
  forall cs i kp acc A, Forall (ntt_poly p L) cs -> holds n acc A ->
  holds n kp (fun j => s j ^ Z.of_nat (Nat.max 1 (i - 1))) ->
  exists r, extract_loop key p cs i kp acc = Ok r /\
    holds n r (fun j => A j + s j ^ Z.of_nat i * hv (s j) j cs).
Proof.
  intros Ep Hs. induction cs as [|c cs IH]; intros i kp acc A Hc HA Hk; cbn [extract_loop].
  - exists acc. split; [reflexivity|]. eapply holds_ext; [exact HA|]. intros j Hj. cbn [hv]. apply cong_eq. ring.
  - inversion_clear Hc as [|? ? Hc0 Hc1]. rewrite Ep. pose proof (holds_of c Hc0) as Hcv.
    assert (K : exists kp', (if (1 <? i)%nat then poly_mul p kp (sk_key key) else @Ok poly kp) = Ok kp' /\
               holds n kp' (fun j => s j ^ Z.of_nat (Nat.max 1 i))).
    { destruct (Nat.ltb_spec 1 i) as [H|H].
      - destruct (mul_holds p G n kp (sk_key key) _ _ Hk Hs) as (kp' & E & H' & _). exists kp'. split; [exact E|].
        eapply holds_ext; [exact H'|]. intros j Hj. apply cong_eq. cbv beta.
        replace (Z.of_nat (Nat.max 1 i)) with (Z.succ (Z.of_nat (Nat.max 1 (i - 1)))) by lia.
        rewrite Z.pow_succ_r by lia. ring.
      - exists kp. split; [reflexivity|]. replace (Nat.max 1 i) with (Nat.max 1 (i - 1)) by lia. exact Hk. }
    destruct K as (kp' & -> & Hk'). cbn [bind].
    assert (K : exists c', (if (0 <? i)%nat then poly_mul p c kp' else @Ok poly c) = Ok c' /\
               holds n c' (fun j => s j ^ Z.of_nat i * at_ j c)).
    { destruct (Nat.ltb_spec 0 i) as [H|H].
      - destruct (mul_holds p G n c kp' _ _ Hcv Hk') as (c' & E & H' & _). exists c'. split; [exact E|].
        eapply holds_ext; [exact H'|]. intros j Hj. apply cong_eq. cbv beta. replace (Nat.max 1 i) with i by lia. ring.
      - exists c. split; [reflexivity|]. replace i with O by lia. eapply holds_ext; [exact Hcv|]. intros j Hj.
        apply cong_eq. change (Z.of_nat 0) with 0. rewrite Z.pow_0_r. ring. }
    destruct K as (c' & -> & Hc'). cbn [bind].
    destruct (add_holds p G n acc c' _ _ HA Hc') as (acc' & E & HA' & _). rewrite E. cbn [bind].
    destruct (IH (S i) kp' acc' _ Hc1 HA') as (r & Er & Hr).
    { replace (S i - 1)%nat with i by lia. exact Hk'. }
    exists r. split; [exact Er|]. eapply holds_ext; [exact Hr|]. intros j Hj. apply cong_eq. cbn [hv].
    rewrite Nat2Z.inj_succ, Z.pow_succ_r by lia. ring.
Qed.

Lemma extract_ok key x f : sk_p key = p -> sk_np key = np -> ntt_poly p L (sk_key key) -> ct_p x = p ->
  Forall (ntt_poly p L) (ct_c x) -> pcarries (secret key) (ct_c x) f ->
  extract_error_and_message key x = Ok (map (fun i => import_int p (f i mod m)) (seq 0 n)).
Proof.
  intros Ep Enp Hk Epx Hc Hf. unfold extract_error_and_message. rewrite Ep, Enp, Epx, (proj1 Hk).
  destruct zero_at as (z & Ez & Hz & Vz). rewrite Ez. cbn [bind].
  pose proof (poly_holds p L np C _ Hk) as HS. unfold secret in *. rewrite Ep, Enp in *.
  destruct (extract_loop_ok key _ Ep HS (ct_c x) 0 (sk_key key) z (fun _ => 0) Hc) as (r & Er & Hr).
  { eapply holds_ext; [apply holds_of, Hz|]. exact Vz. }
  { eapply holds_ext; [exact HS|]. intros j Hj. apply cong_eq. change (Z.of_nat (Nat.max 1 (0 - 1))) with 1.
    rewrite Z.pow_1_r. reflexivity. }
  rewrite Er. cbn [bind]. apply (inverse_holds p G L np X NG). eapply holds_ext; [exact Hr|].
  intros j Hj. cbv beta. change (Z.of_nat 0) with 0. rewrite Z.pow_0_r, Z.mul_1_l, Z.add_0_l.
  apply (proj1 (pcarries_iff _ _ _ Hc) Hf j Hj).
Qed.

End Ops.
