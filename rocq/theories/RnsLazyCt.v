(** Lazy accumulation in ciphertexts. *)
From Coq Require Import Setoid Znumtheory.
From Verif Require Import Base FinSum PolySpec Ring NegRing SymSpec Montgomery MontBatch MontBatchProofs
  Spec RnsPoly RnsSpec CrtMath RnsSub RnsProofs RnsBasis RnsMore RnsCt RnsCtSpec RnsCtProofs RnsLazy.

(** a sum of polynomials *)
Definition psum (l : list (nat -> Z)) : nat -> Z := fun i => fold_right Z.add 0 (map (fun f => f i) l).

Section Run.
Variables (k : Z) (L : nat) (ms : list pmod).
Hypothesis OK : moduli_ok k L ms.
Hypothesis NE : ms <> [].
Local Notation n := (2 ^ L)%nat.

Lemma lazy_ext z f g : (forall i, (i < n)%nat -> f i = g i) -> lazy_is k ms L z f -> lazy_is k ms L z g.
Proof.
  intros E (A & B & C & D). split; [exact A|]. split; [exact B|]. split; [exact C|].
  clear -E D OK. unfold moduli_ok in OK. revert OK. induction D as [|m v t vs Hv HF IH]; intros O; constructor; [|apply IH; exact (Forall_inv_tail O)].
  destruct Hv as (V1 & V2 & V3). split; [exact V1|]. split; [exact V2|]. apply (sub_ext k L m (Forall_inv O) _ _ _ _ V3).
  intros i Hi. apply cong_eq, E, Hi.
Qed.

(** polynomials with what they represent *)
Definition rep_pair (ab : rpoly * rpoly) (fg : (nat -> Z) * (nat -> Z)) : Prop :=
  rns_is ms L true (fst ab) (fst fg) /\ rns_is ms L true (snd ab) (snd fg).

Definition products (fgs : list ((nat -> Z) * (nat -> Z))) : nat -> Z := psum (map (fun fg => negacyclic n (fst fg) (snd fg)) fgs).

Lemma run_is ops fgs : Forall2 rep_pair ops fgs -> forall z h, lazy_is k ms L z h ->
  exists z', fold_left (fun r ab => do! z <- r; rlazy_fused z (fst ab) (snd ab) ms) ops (Ok z) = Ok z' /\
    lazy_is k ms L z' (fun i => h i + products fgs i).
Proof.
  induction 1 as [|ab fg ops fgs [Ha Hb] HF IH]; intros z h Hz.
  - exists z. split; [reflexivity|]. apply (lazy_ext z h); [|exact Hz]. intros i _. unfold products, psum. cbn. ring.
  - cbn [fold_left bind]. destruct (lazy_fused_is k L ms OK z (fst ab) (snd ab) h _ _ NE Hz Ha Hb) as (z1 & E1 & H1).
    rewrite E1. destruct (IH z1 _ H1) as (z2 & E2 & H2). exists z2. split; [exact E2|].
    eapply lazy_ext; [|exact H2]. intros i _. cbv beta. unfold products, psum. cbn [map fold_right]. ring.
Qed.

(** ciphertexts a_i = (c0, c1) with plaintexts *)
Definition operand (ab : rct * rpoly) (d : (nat -> Z) * (nat -> Z) * (nat -> Z)) : Prop :=
  let '(c0, c1, m) := d in
  rt_ms (fst ab) = ms /\ rt_pow (fst ab) = 1 /\ Forall2 (rns_is ms L true) (rt_c (fst ab)) [c0; c1] /\ rns_is ms L true (snd ab) m.

Definition pairs0 (ds : list ((nat -> Z) * (nat -> Z) * (nat -> Z))) := map (fun d => let '(c0, c1, m) := d in (c0, m)) ds.
Definition pairs1 (ds : list ((nat -> Z) * (nat -> Z) * (nat -> Z))) := map (fun d => let '(c0, c1, m) := d in (c1, m)) ds.

Definition lazily (ops : list (rct * rpoly)) (x : rct) : result rct :=
  fold_left (fun r ab => do! x <- r; rct_fused_lazily x (fst ab) (snd ab)) ops (Ok x).

Lemma lazily_step x a b c0 c1 m : operand (a, b) (c0, c1, m) -> rt_ms x = ms -> rt_pow x = 1 -> forall h,
  match rt_lazy x with [] => forall i, h i = 0 | [z] => lazy_is k ms L z h | _ => False end ->
  exists z, rct_fused_lazily x a b = Ok (rct_with_lazy x [z]) /\ lazy_is k ms L z (fun i => h i + negacyclic n c0 m i).
Proof.
  intros (A1 & A2 & A3 & A4) X1 X2 h Hh. cbn [fst snd] in *. unfold rct_fused_lazily.
  destruct (rt_c a) as [|a0 [|a1 [|a2 t]]] eqn:Ec; try (inversion A3; fail).
  1:{ inversion A3 as [|? ? ? ? ? B]. inversion B. }
  2:{ inversion A3 as [|? ? ? ? ? B]. inversion B as [|? ? ? ? ? B']. inversion B'. }
  assert (H0 : rns_is ms L true a0 c0) by (inversion A3; assumption).
  rewrite X1, X2, A1, A2, (same_len_eq ms ms eq_refl), Z.eqb_refl. cbn [negb].
  destruct (rt_lazy x) as [|z [|z2 zs]]; [| |contradiction].
  - destruct (lazy_create_is k L ms OK a0 b c0 m NE H0 A4) as (z & E & Hz). rewrite E. cbn [bind]. exists z. split; [reflexivity|].
    eapply lazy_ext; [|exact Hz]. intros i _. cbv beta. rewrite Hh. ring.
  - destruct (lazy_fused_is k L ms OK z a0 b h c0 m NE Hh H0 A4) as (z' & E & Hz). rewrite E. cbn [bind]. exists z'. auto.
Qed.

Lemma lazily_is ops ds : Forall2 operand ops ds -> ops <> [] -> forall x, rt_ms x = ms -> rt_pow x = 1 -> forall h,
  match rt_lazy x with [] => forall i, h i = 0 | [z] => lazy_is k ms L z h | _ => False end ->
  exists z, lazily ops x = Ok (rct_with_lazy x [z]) /\ lazy_is k ms L z (fun i => h i + products (pairs0 ds) i).
Proof.
  unfold lazily. induction 1 as [|[a b] [[c0 c1] m] ops ds Ho HF IH]; intros N x X1 X2 h Hh; [contradiction|].
  cbn [fold_left bind fst snd]. destruct (lazily_step x a b c0 c1 m Ho X1 X2 h Hh) as (z & E & Hz). rewrite E.
  destruct ops as [|ab ops].
  - inversion HF. exists z. split; [reflexivity|]. eapply lazy_ext; [|exact Hz]. intros i _. unfold products, psum, pairs0. cbn. ring.
  - destruct (IH ltac:(discriminate) (rct_with_lazy x [z]) X1 X2 _ Hz) as (z' & E' & Hz'). exists z'. split; [exact E'|].
    eapply lazy_ext; [|exact Hz']. intros i _. cbv beta. unfold products, psum, pairs0. cbn [map fold_right fst snd]. ring.
Qed.

Lemma merge_empty x z h : rt_ms x = ms -> rt_lazy x = [z] -> rt_c x = [] -> lazy_is k ms L z h ->
  exists e, rct_merge x = Ok (rct_make [e] ms (rt_pow x)) /\ rns_is ms L true e h.
Proof.
  intros X1 X2 X3 Hz. destruct (lazy_export_is k L ms OK z h NE Hz) as (e & E & He). exists e. split; [|exact He].
  unfold rct_merge. rewrite X2, X3, X1. cbn [rct_merge_into]. rewrite E. reflexivity.
Qed.

Lemma merge_into x z h c0 cs d : rt_ms x = ms -> rt_lazy x = [z] -> rt_c x = c0 :: cs -> lazy_is k ms L z h ->
  rns_is ms L true c0 d ->
  exists e, rct_merge x = Ok (rct_make (e :: cs) ms (rt_pow x)) /\ rns_is ms L true e (fun i => d i + h i).
Proof.
  intros X1 X2 X3 Hz Hd. destruct (lazy_export_is k L ms OK z h NE Hz) as (e & E & He).
  destruct (rns_add_is k L ms OK true c0 e d h Hd He) as (y & Ey & Hy). exists y. split; [|exact Hy].
  unfold rct_merge. rewrite X2, X3, X1. cbn [rct_merge_into]. rewrite E. cbn [bind]. rewrite Ey. reflexivity.
Qed.

(** the phase of the sums *)
Variable s : nat -> Z.
Local Notation Q := (big_q ms).
Local Lemma Hn0 : (0 < n)%nat.
Proof. apply (Hn L). Qed.
Add Ring NRL : (neg_ring Q n Hn0) (setoid (pcong_equiv Q n) (neg_ring_ext Q n)).

Lemma phase2 S0 c0 c1 : pcong Q n (phase_of n S0 [c0; c1]) (padd c0 (negacyclic n S0 c1)).
Proof.
  rewrite (phase_cons Q n Hn0), (phase_cons Q n Hn0).
  assert (P0 : pcong Q n (phase_of n S0 []) pzero) by apply phase_nil. rewrite P0. ring.
Qed.

Lemma products_phase S0 (ds : list ((nat -> Z) * (nat -> Z) * (nat -> Z))) :
  pcong Q n (phase_of n S0 [products (pairs0 ds); products (pairs1 ds)])
    (psum (map (fun d => let '(c0, c1, m) := d in negacyclic n (phase_of n S0 [c0; c1]) m) ds)).
Proof.
  rewrite phase2. induction ds as [|[[c0 c1] m] ds IH].
  - change (products (pairs0 [])) with pzero. change (products (pairs1 [])) with pzero. cbn [map]. change (psum []) with pzero. ring.
  - change (products (pairs0 ((c0, c1, m) :: ds))) with (padd (negacyclic n c0 m) (products (pairs0 ds))).
    change (products (pairs1 ((c0, c1, m) :: ds))) with (padd (negacyclic n c1 m) (products (pairs1 ds))).
    cbn [map]. set (T := map _ ds) in *.
    change (psum (negacyclic n (phase_of n S0 [c0; c1]) m :: T)) with (padd (negacyclic n (phase_of n S0 [c0; c1]) m) (psum T)).
    rewrite (phase2 S0 c0 c1). rewrite <- IH. ring.
Qed.
End Run.
