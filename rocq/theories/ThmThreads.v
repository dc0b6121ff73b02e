(** Property theorem C85: threads that share a thread-safe generator. *)
From Verif Require Import Base ZLemmas FinSum PolySpec Montgomery MontBatch Ntt Poly PolyView Spec SymEnc SymSpec Prng PrngSpec SampleSpec PrngProofs ThmPrng ThmSymEnc Threads.

Definition calls_of (h : list (nat * call * result Z)) : list call := map (fun e => snd (fst e)) h.
Definition results_of (h : list (nat * call * result Z)) : list (result Z) := map snd h.

(** ** The invariant *)

(** reading one byte, from the test on *)
Definition refilled (block : Z -> result (list Z)) (s : bstate) : result bstate :=
  if Z.of_nat (length (b_buf s)) <=? b_pos s then resalt block s else Ok s.

(** what the members hold when the thread is at [p] and the bytes before led to [s] *)
Definition pc_inv (block : Z -> result (list Z)) (p : pc) (s mem : bstate) (got need : nat) : Prop :=
  match p with
  | Check => mem = s /\ (got < need)%nat
  | Fill => mem = s /\ Z.of_nat (length (b_buf s)) <= b_pos s /\ (got < need)%nat
  | Count => exists buf, block (b_salt s) = Ok buf /\ Z.of_nat (length (b_buf s)) <= b_pos s /\
      mem = {| b_pos := b_pos s; b_salt := b_salt s; b_buf := buf |} /\ (got < need)%nat
  | Rewind => exists buf, block (b_salt s) = Ok buf /\ Z.of_nat (length (b_buf s)) <= b_pos s /\ b_salt s <> 2 ^ 31 - 1 /\
      mem = {| b_pos := b_pos s; b_salt := b_salt s + 1; b_buf := buf |} /\ (got < need)%nat
  | Read => refilled block s = Ok mem /\ (got < need)%nat
  | Incr x => refilled block s = Ok mem /\ (exists y, get (b_buf mem) (Z.to_nat (b_pos mem)) = Ok y /\ x = wrap 8 y) /\ (got < need)%nat
  | Done => mem = s /\ got = need
  end.

Definition hist_inv (block : Z -> result (list Z)) (s0 : bstate) (h : list (nat * call * result Z)) (sm : bstate) : Prop :=
  exists cs1 cs2 xs s1, calls_of h = cs1 ++ cs2 /\ run_calls (buffered block) cs1 s0 = Ok (xs, s1) /\
  exists e, results_of h = map Ok xs ++ repeat (Err e) (length cs2) /\
    (cs2 = [] /\ sm = s1 \/
     buf_rand8 block sm = Err e /\ exists l, byte_reads block s1 l sm /\ Z.of_nat (length l) < reads cs2).

Definition minv (block : Z -> result (list Z)) (s0 : bstate) (m : machine) : Prop :=
  exists sm, hist_inv block s0 (m_history m) sm /\
  match m_mutex m with
  | None => (forall t, m_thr m t = None) /\ m_mem m = sm
  | Some tid => (forall t, t <> tid -> m_thr m t = None) /\
      exists fr s2, m_thr m tid = Some fr /\ byte_reads block sm (f_got fr) s2 /\
        pc_inv block (f_pc fr) s2 (m_mem m) (length (f_got fr)) (call_reads (f_call fr))
  end.

Lemma reads_app a b : reads (a ++ b) = reads a + reads b.
Proof. unfold reads. rewrite map_app, fold_right_app. induction a as [|x a IH]; cbn [map fold_right app]; [lia|]. lia. Qed.
Lemma reads_nonneg a : 0 <= reads a.
Proof. unfold reads. induction a as [|[] a IH]; cbn [map fold_right]; lia. Qed.
Lemma reads_one c : reads [c] = Z.of_nat (call_reads c).
Proof. destruct c; reflexivity. Qed.

Lemma set_same f tid x : set_thr f tid x tid = x.
Proof. unfold set_thr. rewrite Nat.eqb_refl. reflexivity. Qed.
Lemma set_other f tid x t : t <> tid -> set_thr f tid x t = f t.
Proof. intros H. unfold set_thr. destruct (Nat.eqb_spec t tid); [contradiction|reflexivity]. Qed.
Lemma set_none f tid : (forall t, t <> tid -> f t = None) -> forall t, set_thr f tid None t = None.
Proof. intros H t. unfold set_thr. destruct (Nat.eqb_spec t tid); [reflexivity|auto]. Qed.
Lemma set_others f tid x : (forall t, t <> tid -> f t = None) -> forall t, t <> tid -> set_thr f tid x t = None.
Proof. intros H t Ht. rewrite set_other by exact Ht. auto. Qed.

(** a thread in a call holds the mutex *)
Lemma holder block s0 m tid fr : minv block s0 m -> m_thr m tid = Some fr ->
  exists sm s2, hist_inv block s0 (m_history m) sm /\ m_mutex m = Some tid /\ (forall t, t <> tid -> m_thr m t = None) /\
    byte_reads block sm (f_got fr) s2 /\ pc_inv block (f_pc fr) s2 (m_mem m) (length (f_got fr)) (call_reads (f_call fr)).
Proof.
  intros (sm & H & I) E. destruct (m_mutex m) as [t|] eqn:Em.
  - destruct I as [O (fr' & s2 & F & R & P)]. destruct (Nat.eq_dec tid t) as [->|N].
    + rewrite F in E. injection E as ->. exists sm, s2. auto.
    + rewrite (O tid N) in E. discriminate E.
  - destruct I as [O _]. rewrite (O tid) in E. discriminate E.
Qed.

(** nothing can be read from a generator whose next block cannot be computed *)
Lemma stuck_reads block s e l s2 : buf_rand8 block s = Err e -> byte_reads block s l s2 -> l = [] /\ s2 = s.
Proof.
  intros E H. destruct l as [|x l].
  - inversion H as [|? l' ? ? ? ? ?]; subst; [auto|destruct l'; discriminate].
  - destruct (byte_reads_split block (length l) s (x :: l) s2 eq_refl H) as (y & s1 & t & _ & E1 & _). rewrite E in E1. discriminate E1.
Qed.

Lemma calls_snoc h a c r : calls_of (h ++ [(a, c, r)]) = calls_of h ++ [c].
Proof. unfold calls_of. rewrite map_app. reflexivity. Qed.
Lemma results_snoc h a c r : results_of (h ++ [(a, c, r)]) = results_of h ++ [r].
Proof. unfold results_of. rewrite map_app. reflexivity. Qed.

Lemma call_reads_pos c : (0 < call_reads c)%nat. Proof. destruct c; cbn; lia. Qed.

(** returning extends the sequential run *)
Lemma hist_return block s0 h sm tid c got s2 : hist_inv block s0 h sm -> byte_reads block sm got s2 -> length got = call_reads c ->
  hist_inv block s0 (h ++ [(tid, c, Ok (le_value got))]) s2.
Proof.
  intros (cs1 & cs2 & xs & s1 & EC & ER & e & EV & D) HR HL. destruct D as [[-> ->]|D].
  - rewrite app_nil_r in EC. exists (cs1 ++ [c]), [], (xs ++ [le_value got]), s2. rewrite calls_snoc, EC, results_snoc, app_nil_r.
    split; [reflexivity|]. split.
    + rewrite run_calls_app. cbn [buffered pr_st] in *. rewrite ER. cbn [bind run_calls]. rewrite (call_of_reads block c got s1 s2 HL HR). reflexivity.
    + exists e. split; [|left; auto]. cbn [length repeat] in *. rewrite EV, !app_nil_r, map_app. reflexivity.
  - destruct D as [D _]. destruct (stuck_reads _ _ _ _ _ D HR) as [-> _]. pose proof (call_reads_pos c). cbn in HL. lia.
Qed.

(** so does failing *)
Lemma hist_fail block s0 h sm tid c got s2 e : hist_inv block s0 h sm -> byte_reads block sm got s2 -> (length got < call_reads c)%nat -> buf_rand8 block s2 = Err e ->
  hist_inv block s0 (h ++ [(tid, c, Err e)]) s2.
Proof.
  intros (cs1 & cs2 & xs & s1 & EC & ER & e' & EV & D) HR HG HE.
  exists cs1, (cs2 ++ [c]), xs, s1. rewrite calls_snoc, EC, results_snoc, app_assoc. split; [reflexivity|]. split; [exact ER|].
  exists e. split; [|right; split; [exact HE|]].
  2: { rewrite reads_app, reads_one. destruct D as [[-> ->]|[D (l & Hl & Ll)]].
    - exists got. split; [exact HR|]. change (reads []) with 0. lia.
    - destruct (stuck_reads _ _ _ _ _ D HR) as [_ ->]. exists l. split; [exact Hl|lia]. }
  rewrite EV, app_length, Nat.add_comm. cbn [length Nat.add]. destruct D as [[-> ->]|D].
  - cbn [length repeat]. rewrite app_nil_r. reflexivity.
  - destruct D as [D _]. destruct (stuck_reads _ _ _ _ _ D HR) as [_ ->]. rewrite HE in D. injection D as ->.
    rewrite <- app_assoc. f_equal. clear. induction (length cs2) as [|n IH]; [reflexivity|]. cbn [repeat app]. rewrite IH. reflexivity.
Qed.

Lemma step_inv block s0 tid m m' : minv block s0 m -> tstep true block tid m m' -> minv block s0 m'.
Proof.
  intros I S. inversion S as [m0 c Hn Hm|m0 fr F P|m0 fr buf F P B|m0 fr e F P B|m0 fr F P NS|m0 fr F P|m0 fr x F P G|m0 fr x F P|m0 fr F P]; subst m0 m';
    [|destruct (holder block s0 m tid fr I F) as (sm & s2 & H & Mu & O & R & Q); rewrite P in Q; cbn [pc_inv] in Q..].
  - destruct I as (sm & H & I). specialize (Hm eq_refl). rewrite Hm in I. destruct I as [O E]. exists sm. split; [exact H|]. cbn [m_mutex m_thr m_mem].
    split; [apply set_others; auto|]. eexists _, sm. rewrite set_same. split; [reflexivity|]. cbn [f_got f_pc f_call pc_inv length].
    split; [constructor|]. split; [exact E|apply call_reads_pos].
  - exists sm. split; [exact H|]. unfold goto. cbn [m_mutex m_thr m_mem]. rewrite Mu. split; [apply set_others; exact O|].
    eexists _, s2. rewrite set_same. split; [reflexivity|]. cbn [f_got f_pc f_call]. split; [exact R|]. destruct Q as [-> L].
    destruct (Z.leb_spec (Z.of_nat (length (b_buf s2))) (b_pos s2)) as [Hl|Hl]; cbn [pc_inv]; [auto|].
    split; [|exact L]. unfold refilled. destruct (Z.leb_spec (Z.of_nat (length (b_buf s2))) (b_pos s2)); [lia|reflexivity].
  - exists sm. split; [exact H|]. unfold goto. cbn [m_mutex m_thr m_mem]. rewrite Mu. split; [apply set_others; exact O|].
    eexists _, s2. rewrite set_same. split; [reflexivity|]. cbn [f_got f_pc f_call pc_inv]. split; [exact R|].
    destruct Q as (E & Hl & L). rewrite E in *. exists buf. auto.
  - exists s2. unfold leave. cbn [m_history m_mutex m_thr m_mem]. destruct Q as (E & Hl & L). split; [|split; [apply set_none; exact O|exact E]].
    eapply hist_fail; [exact H|exact R|exact L|]. unfold buf_rand8, resalt. rewrite E in B.
    destruct (Z.leb_spec (Z.of_nat (length (b_buf s2))) (b_pos s2)); [|lia]. rewrite B. reflexivity.
  - exists sm. split; [exact H|]. unfold goto. cbn [m_mutex m_thr m_mem]. rewrite Mu. split; [apply set_others; exact O|].
    eexists _, s2. rewrite set_same. split; [reflexivity|]. cbn [f_got f_pc f_call pc_inv]. split; [exact R|].
    destruct Q as (buf & B & Hl & E & L). rewrite E in *. cbn [b_pos b_salt b_buf] in *. exists buf. auto.
  - exists sm. split; [exact H|]. unfold goto. cbn [m_mutex m_thr m_mem]. rewrite Mu. split; [apply set_others; exact O|].
    eexists _, s2. rewrite set_same. split; [reflexivity|]. cbn [f_got f_pc f_call pc_inv]. split; [exact R|].
    destruct Q as (buf & B & Hl & NS & E & L). rewrite E in *. cbn [b_pos b_salt b_buf] in *. split; [|exact L].
    unfold refilled, resalt. destruct (Z.leb_spec (Z.of_nat (length (b_buf s2))) (b_pos s2)); [|lia]. rewrite B. cbn [bind].
    destruct (Z.eqb_spec (b_salt s2) (2 ^ 31 - 1)); [contradiction|reflexivity].
  - exists sm. split; [exact H|]. unfold goto. cbn [m_mutex m_thr m_mem]. rewrite Mu. split; [apply set_others; exact O|].
    eexists _, s2. rewrite set_same. split; [reflexivity|]. cbn [f_got f_pc f_call pc_inv]. split; [exact R|].
    destruct Q as (E & L). split; [exact E|]. split; [|exact L]. exists x. auto.
  - exists sm. split; [exact H|]. unfold goto. cbn [m_mutex m_thr m_mem]. rewrite Mu. split; [apply set_others; exact O|].
    destruct Q as (E & (y & G & ->) & L).
    eexists _, {| b_pos := b_pos (m_mem m) + 1; b_salt := b_salt (m_mem m); b_buf := b_buf (m_mem m) |}.
    rewrite set_same. split; [reflexivity|]. cbn [f_got f_pc f_call]. split.
    + eapply br_snoc; [exact R|]. unfold buf_rand8. fold (refilled block s2). rewrite E. cbn [bind]. rewrite G. reflexivity.
    + rewrite app_length. cbn [length]. destruct (Nat.eqb_spec (length (f_got fr) + 1) (call_reads (f_call fr))) as [EQ|NE]; cbn [pc_inv]; [auto|].
      split; [reflexivity|lia].
  - exists s2. unfold leave. cbn [m_history m_mutex m_thr m_mem]. destruct Q as (E & L). split; [|split; [apply set_none; exact O|exact E]].
    eapply hist_return; [exact H|exact R|exact L].
Qed.

Lemma reach_inv block st m : execution true block (at_rest st) m -> minv block st m.
Proof.
  remember (at_rest st) as m0 eqn:E0. induction 1 as [m|m m1 m2 tid H IH S]; subst.
  - exists st. split; [|split; reflexivity]. exists [], [], [], st. split; [reflexivity|]. split; [reflexivity|].
    exists InvalidArgument. split; [reflexivity|left; auto].
  - eapply step_inv; [apply IH; reflexivity|exact S].
Qed.

(** ** The theorems *)

(** Whatever the interleaving, the calls that have returned are, in the order of
    their return, a sequential run of the generator; if a block could not be
    computed, that run followed by calls that all fail with that error. *)
Theorem C85_linearizable :
  forall block st m, execution true block (at_rest st) m ->
  exists cs1 cs2 xs st', calls_of (m_history m) = cs1 ++ cs2 /\ run_calls (buffered block) cs1 st = Ok (xs, st') /\
  exists e, results_of (m_history m) = map Ok xs ++ repeat (Err e) (length cs2).
Proof.
  intros block st m X. destruct (reach_inv _ _ _ X) as (sm & (cs1 & cs2 & xs & s1 & EC & ER & e & EV & _) & _).
  exists cs1, cs2, xs, s1. split; [exact EC|]. split; [exact ER|]. exists e. exact EV.
Qed.

(** No two threads are inside a call at the same time. *)
Theorem C85_exclusive :
  forall block st m a b, execution true block (at_rest st) m -> m_thr m a <> None -> m_thr m b <> None -> a = b.
Proof.
  intros block st m a b X Ha Hb. pose proof (reach_inv _ _ _ X) as I.
  destruct (m_thr m a) as [fr|] eqn:Ea; [|contradiction]. destruct (holder _ _ _ _ _ I Ea) as (sm & s2 & _ & _ & O & _).
  destruct (Nat.eq_dec b a) as [->|N]; [reflexivity|]. rewrite (O b N) in Hb. contradiction.
Qed.

Section Stream.
Variable block : Z -> result (list Z).
Variable B : Z -> list Z.
Hypothesis HB : forall i, 0 <= i < 2 ^ 31 - 1 -> block i = Ok (B i).
Hypothesis HL : forall i, 0 <= i < 2 ^ 31 - 1 -> Z.of_nat (length (B i)) = output_bytes.
Hypothesis HV : forall i x, 0 <= i < 2 ^ 31 - 1 -> In x (B i) -> 0 <= x < 2 ^ 8.


Lemma expected_app a : forall i b, expected B i (a ++ b) = expected B i a ++ expected B (i + reads a) b.
Proof.
  induction a as [|c a IH]; intros i b; cbn [app expected].
  - change (reads []) with 0. rewrite Z.add_0_r. reflexivity.
  - destruct c; rewrite IH; cbn [app]; [change (reads (CallRand8 :: a)) with (1 + reads a)|change (reads (CallRand64 :: a)) with (8 + reads a)];
      rewrite Z.add_assoc; reflexivity.
Qed.

Lemma byte_reads_at l : forall i s s2, at_pos B i s -> 0 <= i -> i + Z.of_nat (length l) <= capacity -> byte_reads block s l s2 ->
  at_pos B (i + Z.of_nat (length l)) s2.
Proof.
  induction l as [|x l IH]; intros i s s2 A Hi Hc H.
  - inversion H as [|? l' ? ? ? ? ?]; subst; [|destruct l'; discriminate]. cbn [length]. rewrite Z.add_0_r. exact A.
  - destruct (byte_reads_split block (length l) s (x :: l) s2 eq_refl H) as (y & s1 & t & E & E1 & H1). injection E as <- <-.
    cbn [length] in Hc. destruct (read_byte block B HB HL HV i s A ltac:(lia)) as (s1' & E1' & A1). rewrite E1 in E1'. injection E1' as _ <-.
    specialize (IH (i + 1) s1 s2 A1 ltac:(lia) ltac:(lia) H1). cbn [length]. replace (i + Z.of_nat (S (length l))) with (i + 1 + Z.of_nat (length l)) by lia. exact IH.
Qed.

(** the state after the history of a generator that has not run out *)
Lemma hist_at st h sm : at_pos B 0 st -> hist_inv block st h sm -> reads (calls_of h) <= capacity ->
  results_of h = map Ok (expected B 0 (calls_of h)) /\ at_pos B (reads (calls_of h)) sm.
Proof.
  intros A (cs1 & cs2 & xs & s1 & EC & ER & e & EV & D) Hc. rewrite EC, reads_app in Hc.
  pose proof (reads_nonneg cs1). pose proof (reads_nonneg cs2).
  destruct (run_ok block B HB HL HV cs1 0 st A ltac:(lia) ltac:(lia)) as (s1' & E1 & A1). cbn [buffered pr_st] in *. rewrite E1 in ER. injection ER as <- <-.
  destruct D as [[-> ->]|[D (l & Hl & Ll)]].
  - rewrite EC, app_nil_r. cbn [length repeat] in EV. rewrite app_nil_r in EV. auto.
  - exfalso. rewrite Z.add_0_l in A1. pose proof (byte_reads_at l _ _ _ A1 ltac:(lia) ltac:(lia) Hl) as A2.
    destruct (read_byte block B HB HL HV _ sm A2 ltac:(lia)) as (s' & E & _). rewrite D in E. discriminate E.
Qed.

(** one more byte for the thread that is in a call *)
Lemma next_byte st m tid fr : minv block st m -> m_thr m tid = Some fr -> f_pc fr <> Done -> at_pos B 0 st ->
  reads (calls_of (m_history m)) + Z.of_nat (call_reads (f_call fr)) <= capacity ->
  exists m' fr', execution true block m m' /\ m_thr m' tid = Some fr' /\ m_history m' = m_history m /\ f_call fr' = f_call fr /\
    length (f_got fr') = S (length (f_got fr)).
Proof.
  intros I F ND A Hc.
  assert (INCR : forall m x fr, m_thr m tid = Some fr -> f_pc fr = Incr x -> exists m' fr', execution true block m m' /\ m_thr m' tid = Some fr' /\
    m_history m' = m_history m /\ f_call fr' = f_call fr /\ length (f_got fr') = S (length (f_got fr))).
  { clear. intros m x fr F P. eexists. eexists. split; [eapply x_next; [apply x_refl|eapply t_incr; eassumption]|]. unfold goto. cbn [m_thr m_history].
    rewrite set_same. split; [reflexivity|]. cbn [f_call f_got]. rewrite app_length. cbn [length]. repeat split. lia. }
  assert (MORE : forall m m1 fr fr1, execution true block m m1 -> m_history m1 = m_history m -> f_call fr1 = f_call fr -> f_got fr1 = f_got fr ->
    (exists m' fr', execution true block m1 m' /\ m_thr m' tid = Some fr' /\ m_history m' = m_history m1 /\ f_call fr' = f_call fr1 /\ length (f_got fr') = S (length (f_got fr1))) ->
    exists m' fr', execution true block m m' /\ m_thr m' tid = Some fr' /\ m_history m' = m_history m /\ f_call fr' = f_call fr /\ length (f_got fr') = S (length (f_got fr))).
  { clear. intros m m1 fr fr1 X Hh Hc Hg (m' & fr' & X' & F' & H' & C' & G'). exists m', fr'. rewrite <- Hh, <- Hc, <- Hg. split; [|auto].
    clear - X X'. induction X' as [m1|m1 m2 m3 t X' IH S]; [exact X|]. eapply x_next; [apply IH; exact X|exact S]. }
  assert (READ : forall m fr, minv block st m -> m_thr m tid = Some fr -> f_pc fr = Read ->
    reads (calls_of (m_history m)) + Z.of_nat (call_reads (f_call fr)) <= capacity -> exists m' fr', execution true block m m' /\ m_thr m' tid = Some fr' /\
    m_history m' = m_history m /\ f_call fr' = f_call fr /\ length (f_got fr') = S (length (f_got fr))).
  { clear m fr I F ND Hc. intros m fr I F P Hc. destruct (holder _ _ _ _ _ I F) as (sm & s2 & H & Mu & O & R & Q). rewrite P in Q. destruct Q as [Q L].
    pose proof (reads_nonneg (calls_of (m_history m))). destruct (hist_at st _ sm A H ltac:(lia)) as [_ A1].
    pose proof (byte_reads_at (f_got fr) _ _ _ A1 ltac:(lia) ltac:(lia) R) as A2.
    destruct (read_byte block B HB HL HV _ s2 A2 ltac:(lia)) as (s' & E & _). unfold buf_rand8 in E. fold (refilled block s2) in E. rewrite Q in E. cbn [bind] in E.
    destruct (get (b_buf (m_mem m)) (Z.to_nat (b_pos (m_mem m)))) as [y|e|] eqn:G; try discriminate E.
    eapply MORE; [eapply x_next; [apply x_refl|eapply t_read; eassumption]| | | |eapply (INCR _ (wrap 8 y)); [unfold goto; cbn [m_thr]; apply set_same|reflexivity]]; reflexivity. }
  assert (REWIND : forall m fr, minv block st m -> m_thr m tid = Some fr -> f_pc fr = Rewind ->
    reads (calls_of (m_history m)) + Z.of_nat (call_reads (f_call fr)) <= capacity -> exists m' fr', execution true block m m' /\ m_thr m' tid = Some fr' /\
    m_history m' = m_history m /\ f_call fr' = f_call fr /\ length (f_got fr') = S (length (f_got fr))).
  { clear m fr I F ND Hc. intros m fr I F P Hc. assert (S : tstep true block tid m (goto m tid fr Read {| b_pos := 0; b_salt := b_salt (m_mem m); b_buf := b_buf (m_mem m) |})) by (eapply t_rewind; eassumption).
    pose proof (step_inv _ _ _ _ _ I S) as I'.
    eapply MORE; [eapply x_next; [apply x_refl|exact S]| | | |eapply READ; [exact I'|unfold goto; cbn [m_thr]; apply set_same|reflexivity|exact Hc]]; reflexivity. }
  assert (COUNT : forall m fr, minv block st m -> m_thr m tid = Some fr -> f_pc fr = Count ->
    reads (calls_of (m_history m)) + Z.of_nat (call_reads (f_call fr)) <= capacity -> exists m' fr', execution true block m m' /\ m_thr m' tid = Some fr' /\
    m_history m' = m_history m /\ f_call fr' = f_call fr /\ length (f_got fr') = S (length (f_got fr))).
  { clear m fr I F ND Hc. intros m fr I F P Hc. destruct (holder _ _ _ _ _ I F) as (sm & s2 & H & Mu & O & R & Q). rewrite P in Q. destruct Q as (buf & EB & Hl & EM & L).
    pose proof (reads_nonneg (calls_of (m_history m))). destruct (hist_at st _ sm A H ltac:(lia)) as [_ A1].
    pose proof (byte_reads_at (f_got fr) _ _ _ A1 ltac:(lia) ltac:(lia) R) as A2.
    destruct (read_byte block B HB HL HV _ s2 A2 ltac:(lia)) as (s' & E & _). unfold buf_rand8, resalt in E.
    destruct (Z.leb_spec (Z.of_nat (length (b_buf s2))) (b_pos s2)); [|lia]. rewrite EB in E. cbn [bind] in E.
    destruct (Z.eqb_spec (b_salt s2) (2 ^ 31 - 1)) as [X|NS]; [discriminate E|].
    assert (S : tstep true block tid m (goto m tid fr Rewind {| b_pos := b_pos (m_mem m); b_salt := b_salt (m_mem m) + 1; b_buf := b_buf (m_mem m) |})).
    { eapply t_count; [exact F|exact P|]. rewrite EM. exact NS. }
    pose proof (step_inv _ _ _ _ _ I S) as I'.
    eapply MORE; [eapply x_next; [apply x_refl|exact S]| | | |eapply REWIND; [exact I'|unfold goto; cbn [m_thr]; apply set_same|reflexivity|exact Hc]]; reflexivity. }
  assert (FILL : forall m fr, minv block st m -> m_thr m tid = Some fr -> f_pc fr = Fill ->
    reads (calls_of (m_history m)) + Z.of_nat (call_reads (f_call fr)) <= capacity -> exists m' fr', execution true block m m' /\ m_thr m' tid = Some fr' /\
    m_history m' = m_history m /\ f_call fr' = f_call fr /\ length (f_got fr') = S (length (f_got fr))).
  { clear m fr I F ND Hc. intros m fr I F P Hc. destruct (holder _ _ _ _ _ I F) as (sm & s2 & H & Mu & O & R & Q). rewrite P in Q. destruct Q as (EM & Hl & L).
    pose proof (reads_nonneg (calls_of (m_history m))). destruct (hist_at st _ sm A H ltac:(lia)) as [_ A1].
    pose proof (byte_reads_at (f_got fr) _ _ _ A1 ltac:(lia) ltac:(lia) R) as A2.
    destruct (read_byte block B HB HL HV _ s2 A2 ltac:(lia)) as (s' & E & _). unfold buf_rand8, resalt in E.
    destruct (Z.leb_spec (Z.of_nat (length (b_buf s2))) (b_pos s2)); [|lia]. destruct (block (b_salt s2)) as [buf|e|] eqn:EB; try discriminate E.
    assert (S : tstep true block tid m (goto m tid fr Count {| b_pos := b_pos (m_mem m); b_salt := b_salt (m_mem m); b_buf := buf |})).
    { eapply t_fill; [exact F|exact P|]. rewrite EM. exact EB. }
    pose proof (step_inv _ _ _ _ _ I S) as I'.
    eapply MORE; [eapply x_next; [apply x_refl|exact S]| | | |eapply COUNT; [exact I'|unfold goto; cbn [m_thr]; apply set_same|reflexivity|exact Hc]]; reflexivity. }
  destruct (f_pc fr) as [| | | | |x|] eqn:P; [|eapply FILL; eassumption|eapply COUNT; eassumption|eapply REWIND; eassumption|eapply READ; eassumption|eapply INCR; eassumption|contradiction].
  assert (S : tstep true block tid m (goto m tid fr (if Z.of_nat (length (b_buf (m_mem m))) <=? b_pos (m_mem m) then Fill else Read) (m_mem m))) by (eapply t_check; eassumption).
  pose proof (step_inv _ _ _ _ _ I S) as I'. destruct (Z.of_nat (length (b_buf (m_mem m))) <=? b_pos (m_mem m)).
  - eapply MORE; [eapply x_next; [apply x_refl|exact S]| | | |eapply FILL; [exact I'|unfold goto; cbn [m_thr]; apply set_same|reflexivity|exact Hc]]; reflexivity.
  - eapply MORE; [eapply x_next; [apply x_refl|exact S]| | | |eapply READ; [exact I'|unfold goto; cbn [m_thr]; apply set_same|reflexivity|exact Hc]]; reflexivity.
Qed.

Lemma execution_trans m m1 m2 : execution true block m m1 -> execution true block m1 m2 -> execution true block m m2.
Proof. intros X X'. induction X' as [m1|m1 m2 m3 t X' IH S]; [exact X|]. eapply x_next; [apply IH; exact X|exact S]. Qed.

Lemma keep_inv st m m' : minv block st m -> execution true block m m' -> minv block st m'.
Proof. intros I X. induction X as [m|m m1 m2 t X IH S]; [exact I|]. eapply step_inv; [apply IH; exact I|exact S]. Qed.

Lemma finish st : at_pos B 0 st -> forall n m tid fr, minv block st m -> m_thr m tid = Some fr ->
  (call_reads (f_call fr) - length (f_got fr) <= n)%nat ->
  reads (calls_of (m_history m)) + Z.of_nat (call_reads (f_call fr)) <= capacity ->
  exists m' v, execution true block m m' /\ m_mutex m' = None /\ m_history m' = m_history m ++ [(tid, f_call fr, Ok v)].
Proof.
  intros A. induction n as [|n IH]; intros m tid fr I F Hn Hc.
  - destruct (holder _ _ _ _ _ I F) as (sm & s2 & H & Mu & O & R & Q).
    assert (P : f_pc fr = Done).
    { destruct (f_pc fr) eqn:P; cbn [pc_inv] in Q; try reflexivity; exfalso.
      - destruct Q; lia.
      - destruct Q as (_ & _ & ?); lia.
      - destruct Q as (? & _ & _ & _ & ?); lia.
      - destruct Q as (? & _ & _ & _ & _ & ?); lia.
      - destruct Q; lia.
      - destruct Q as (_ & _ & ?); lia. }
    eexists. eexists. split; [eapply x_next; [apply x_refl|eapply t_return; eassumption]|]. unfold leave. cbn [m_mutex m_history]. split; reflexivity.
  - assert (D : f_pc fr = Done \/ f_pc fr <> Done) by (destruct (f_pc fr); auto; right; discriminate).
    destruct D as [D|D].
    + eexists. eexists. split; [eapply x_next; [apply x_refl|eapply t_return; eassumption]|]. unfold leave. cbn [m_mutex m_history]. split; reflexivity.
    + destruct (next_byte st m tid fr I F D A Hc) as (m1 & fr1 & X & F1 & H1 & C1 & G1).
      destruct (IH m1 tid fr1 (keep_inv _ _ _ I X) F1) as (m' & v & X' & Mu & H'); [rewrite C1, G1; lia|rewrite C1, H1; exact Hc|].
      exists m', v. rewrite H1, C1 in H'. split; [eapply execution_trans; eassumption|]. auto.
Qed.

Lemma disjoint_calls st m i j a b c d v w : at_pos B 0 st -> minv block st m -> reads (calls_of (m_history m)) <= capacity -> (i < j)%nat ->
  nth_error (m_history m) i = Some (a, c, v) -> nth_error (m_history m) j = Some (b, d, w) ->
  exists x y, 0 <= x /\ x + Z.of_nat (call_reads c) <= y /\ v = Ok (stream_number B (call_reads c) x) /\ w = Ok (stream_number B (call_reads d) y).
Proof.
  intros A (sm & H & _) Hc Hij Ni Nj. destruct (hist_at st _ sm A H Hc) as [ER _].
  assert (AT : forall k t e r, nth_error (m_history m) k = Some (t, e, r) ->
    r = Ok (stream_number B (call_reads e) (reads (firstn k (calls_of (m_history m))))) /\ nth_error (calls_of (m_history m)) k = Some e).
  { intros k t e r N. assert (NC : nth_error (calls_of (m_history m)) k = Some e) by (unfold calls_of; rewrite nth_error_map, N; reflexivity).
    split; [|exact NC]. assert (NR : nth_error (results_of (m_history m)) k = Some r) by (unfold results_of; rewrite nth_error_map, N; reflexivity).
    destruct (nth_error_split _ _ NC) as (l1 & l2 & EL & LL).
    assert (F1 : firstn k (calls_of (m_history m)) = l1) by (rewrite EL, <- LL, firstn_app, firstn_all, Nat.sub_diag; apply app_nil_r).
    rewrite F1. rewrite ER, EL, expected_app, Z.add_0_l, map_app in NR.
    assert (LX : length (map (@Ok Z) (expected B 0 l1)) = k).
    { rewrite map_length, <- LL. generalize 0. clear. induction l1 as [|[] l IH]; intros z; cbn [expected length]; auto. }
    rewrite nth_error_app2, LX, Nat.sub_diag in NR by lia. destruct e; cbn [expected map nth_error] in NR; injection NR as <-; cbn [call_reads PrngSpec.stream_number]; [|reflexivity].
    f_equal. lia. }
  destruct (AT _ _ _ _ Ni) as [-> Ci]. destruct (AT _ _ _ _ Nj) as [-> Cj].
  exists (reads (firstn i (calls_of (m_history m)))), (reads (firstn j (calls_of (m_history m)))). split; [apply reads_nonneg|]. split; [|auto].
  destruct (nth_error_split _ _ Ci) as (l1 & l2 & EL & LL). rewrite EL, !firstn_app, LL, Nat.sub_diag.
  rewrite (firstn_all2 (n := i)), (firstn_all2 (n := j)) by lia. destruct (j - i)%nat as [|k] eqn:EK; [lia|]. cbn [firstn]. rewrite app_nil_r, reads_app.
  change (c :: firstn k l2) with ([c] ++ firstn k l2). rewrite reads_app, reads_one. pose proof (reads_nonneg (firstn k l2)). lia.
Qed.
End Stream.

(** a generator object just created, the blocks it asks for, and its stream *)
Definition created (block : Z -> result (list Z)) (B : Z -> list Z) (st : bstate) : Prop :=
  (exists chacha20 key, chacha_delivers chacha20 key /\ chacha_create chacha20 key = Ok st /\
     block = chacha_block chacha20 key /\ B = fun n => chacha20 key (chacha_nonce n) (255 * 32)) \/
  (exists hkdf key H, hkdf_delivers hkdf key H /\ hkdf_create hkdf key = Ok st /\
     block = hkdf_block hkdf key /\ B = fun n => H (hkdf_salt n)).

Lemma created_ok block B st : created block B st ->
  (forall i, 0 <= i < 2 ^ 31 - 1 -> block i = Ok (B i)) /\
  (forall i, 0 <= i < 2 ^ 31 - 1 -> Z.of_nat (length (B i)) = output_bytes) /\
  (forall i x, 0 <= i < 2 ^ 31 - 1 -> In x (B i) -> 0 <= x < 2 ^ 8) /\ at_pos B 0 st.
Proof.
  intros CR.
  assert (X : (forall i, 0 <= i < 2 ^ 31 - 1 -> block i = Ok (B i)) /\ (forall i, 0 <= i < 2 ^ 31 - 1 -> Z.of_nat (length (B i)) = output_bytes) /\
    (forall i x, 0 <= i < 2 ^ 31 - 1 -> In x (B i) -> 0 <= x < 2 ^ 8) /\ resalt block {| b_pos := 0; b_salt := 0; b_buf := [] |} = Ok st).
  { destruct CR as [(f & key & D & C & -> & ->)|(f & key & H & D & C & -> & ->)].
    - split; [reflexivity|]. split; [intros n _; apply D|]. split.
      + intros n x _ Hx. destruct (D (chacha_nonce n)) as [_ F]. rewrite Forall_forall in F. apply F, Hx.
      + unfold chacha_create, prng_create in C. destruct (negb _); [discriminate C|exact C].
    - split; [intros n _; apply D|]. split; [intros n _; apply D|]. split.
      + intros n x _ Hx. destruct (D (hkdf_salt n)) as (_ & _ & F). rewrite Forall_forall in F. apply F, Hx.
      + unfold hkdf_create, prng_create in C. destruct (negb _); [discriminate C|exact C]. }
  destruct X as (HB & HL & HV & E). split; [exact HB|]. split; [exact HL|]. split; [exact HV|].
  destruct (first_resalt block B HB) as (st0 & E0 & A0). rewrite E in E0. injection E0 as <-. exact A0.
Qed.

(** No byte is handed out twice, to whichever threads: the results of two
    different calls are numbers read from two disjoint parts of the stream. *)
Theorem C85_disjoint :
  forall block B st m i j a b c d v w, created block B st -> execution true block (at_rest st) m ->
  reads (calls_of (m_history m)) <= capacity -> (i < j)%nat ->
  nth_error (m_history m) i = Some (a, c, v) -> nth_error (m_history m) j = Some (b, d, w) ->
  exists x y, 0 <= x /\ x + Z.of_nat (call_reads c) <= y /\ v = Ok (stream_number B (call_reads c) x) /\ w = Ok (stream_number B (call_reads d) y).
Proof.
  intros block B st m i j a b c d v w CR X Hc Hij Ni Nj. destruct (created_ok _ _ _ CR) as (HB & HL & HV & A0).
  eapply (disjoint_calls _ B HB HL HV st m i j); try eassumption. apply reach_inv. exact X.
Qed.

(** A call that has begun can always finish, and leaves the mutex free: no
    deadlock, as long as the stream is not used up. *)
Theorem C85_progress :
  forall block B st m tid fr, created block B st -> execution true block (at_rest st) m -> m_thr m tid = Some fr ->
  reads (calls_of (m_history m)) + Z.of_nat (call_reads (f_call fr)) <= capacity ->
  exists m' v, execution true block m m' /\ m_mutex m' = None /\ m_history m' = m_history m ++ [(tid, f_call fr, Ok v)].
Proof.
  intros block B st m tid fr CR X F Hc. destruct (created_ok _ _ _ CR) as (HB & HL & HV & A0).
  eapply (finish _ B HB HL HV st A0 (call_reads (f_call fr))); [apply reach_inv; exact X|exact F|lia|exact Hc].
Qed.

(** What a thread sees are bytes and 64-bit numbers. *)
Theorem C85_in_range :
  forall block st m tid c v, execution true block (at_rest st) m -> In (c, v) (seen_by tid (m_history m)) -> 0 <= v < 256 ^ Z.of_nat (call_reads c).
Proof.
  intros block st m tid c v X HI. destruct (C85_linearizable _ _ _ X) as (cs1 & cs2 & xs & st' & EC & ER & e & EV).
  assert (G : forall c s x s', gen_call (buffered block) c s = Ok (x, s') -> 0 <= x < 256 ^ Z.of_nat (call_reads c)).
  { intros d s x s' E. destruct (C37_interface block) as [P8 P64]. destruct d; cbn [gen_call call_reads] in *.
    - specialize (P8 s). rewrite E in P8. exact P8.
    - specialize (P64 s). rewrite E in P64. change (256 ^ Z.of_nat 8) with (2 ^ 64). exact P64. }
  assert (F : Forall2 (fun c x => 0 <= x < 256 ^ Z.of_nat (call_reads c)) cs1 xs).
  { clear - ER G. revert st xs ER. induction cs1 as [|d cs IH]; intros st xs ER; cbn [run_calls] in ER; [injection ER as <- _; constructor|].
    destruct (gen_call (buffered block) d st) as [[x s1]|z|] eqn:E1; cbn [bind] in ER; try discriminate ER. cbn [buffered pr_st] in *.
    destruct (run_calls (buffered block) cs s1) as [[ys s2]|z|] eqn:E2; cbn [bind] in ER; try discriminate ER. injection ER as <- <-.
    constructor; [eapply G; exact E1|eapply IH; exact E2]. }
  clear ER G X. revert cs1 xs EC EV F HI. generalize (m_history m) as h. induction h as [|[[t d] r] h IH]; intros cs1 xs EC EV F HI; [contradiction HI|].
  cbn [seen_by flat_map] in HI. apply in_app_or in HI. unfold calls_of, results_of in EC, EV. cbn [map fst snd] in EC, EV.
  destruct F as [|d' x' cs1 xs R F].
  - exfalso. cbn [map app] in *. clear - EV HI EC. assert (A : forall h k, map snd h = repeat (@Err Z e) k -> seen_by tid h = []).
    { induction h0 as [|[[a b] r'] h0 IH]; intros k E; [reflexivity|]. destruct k as [|k]; [discriminate E|]. cbn [map snd repeat] in E. injection E as -> E.
      unfold seen_by. cbn [flat_map app]. apply (IH k E). }
    destruct cs2 as [|c2 cs2]; [discriminate EC|]. cbn [length repeat] in EV. injection EV as -> EV. destruct HI as [HI|HI]; [contradiction HI|].
    pose proof (A _ _ EV) as Z0. unfold seen_by in Z0. rewrite Z0 in HI. contradiction HI.
  - cbn [map app] in EC, EV. injection EC as <- EC. injection EV as -> EV. destruct HI as [HI|HI].
    + destruct (Nat.eqb t tid); [|contradiction HI]. destruct HI as [HI|[]]. injection HI as <- <-. exact R.
    + eapply IH; eassumption.
Qed.

(** Without the mutex (the SingleThread classes) it fails, even if every access
    is atomic: two threads can get the same byte. *)
Theorem C85_single_thread_refuted :
  forall block B st, created block B st ->
  (exists m, execution false block (at_rest st) m /\
    m_history m = [(0%nat, CallRand8, Ok (stream_byte B 0)); (1%nat, CallRand8, Ok (stream_byte B 0))]) /\
  (stream_byte B 0 <> stream_byte B 1 ->
   forall st', run_calls (buffered block) [CallRand8; CallRand8] st <> Ok ([stream_byte B 0; stream_byte B 0], st')).
Proof.
  intros block B st CR. destruct (created_ok _ _ _ CR) as (HB & HL & HV & A0).
  split.
  - destruct (read_byte _ B HB HL HV 0 st A0) as (s1 & E1 & _); [unfold capacity; lia|].
    destruct A0 as [AS AP AB AI]. rewrite (output_pos) in *. assert (b_salt st = 1 /\ b_pos st = 0) as [S1 P0] by lia.
    assert (LB : Z.of_nat (length (b_buf st)) = 8160) by (rewrite AB, S1; apply (HL 0); lia).
    unfold buf_rand8 in E1. rewrite LB, P0 in E1. change (8160 <=? 0) with false in E1. cbn iota in E1. cbn [bind] in E1. rewrite P0 in E1.
    destruct (get (b_buf st) (Z.to_nat 0)) as [y|e|] eqn:G; try discriminate E1. cbn [bind] in E1. injection E1 as Ey _.
    eexists. split.
    + eapply x_next with (tid := 1%nat); [eapply x_next with (tid := 0%nat); [eapply x_next with (tid := 1%nat); [eapply x_next with (tid := 0%nat);
        [eapply x_next with (tid := 1%nat); [eapply x_next with (tid := 0%nat); [eapply x_next with (tid := 1%nat); [eapply x_next with (tid := 0%nat);
        [eapply x_next with (tid := 1%nat); [eapply x_next with (tid := 0%nat); [apply x_refl|]|]|]|]|]|]|]|]|]|].
      * apply (t_begin false _ 0 _ CallRand8); [reflexivity|discriminate].
      * apply (t_begin false _ 1 _ CallRand8); [reflexivity|discriminate].
      * eapply t_check; reflexivity.
      * eapply t_check; reflexivity.
      * eapply t_read; [reflexivity| |]; cbn [goto m_mem at_rest]; rewrite ?LB, P0; [reflexivity|exact G].
      * eapply t_read; [reflexivity| |]; cbn [goto m_mem at_rest]; rewrite ?LB, P0; [reflexivity|exact G].
      * eapply t_incr; reflexivity.
      * eapply t_incr; reflexivity.
      * eapply t_return; reflexivity.
      * eapply t_return; reflexivity.
    + cbn. rewrite Ey, Z.add_0_r. reflexivity.
  - intros N st' R. destruct (run_ok _ B HB HL HV [CallRand8; CallRand8] 0 st A0 ltac:(lia)) as (s2 & R2 & _); [unfold capacity, reads; cbn; lia|].
    cbn [buffered pr_st] in *. rewrite R2 in R. injection R as R _. apply N. symmetry. exact R.
Qed.

(** ** Example: thread 1 has got its byte, thread 0 is in a call *)
Example C85_example :
  let key := repeat 7 32 in let block := chacha_block toy_chacha key in let B := fun n => toy_chacha key (chacha_nonce n) (255 * 32) in
  (exists st m v, created block B st /\ execution true block (at_rest st) m /\
     m_history m = [(1%nat, CallRand8, Ok v)] /\ m_mutex m = Some 0%nat /\
     m_thr m 0%nat = Some {| f_call := CallRand64; f_got := []; f_pc := Check |} /\ m_thr m 1%nat = None /\
     reads (calls_of (m_history m)) + 8 <= capacity) /\
  stream_byte B 0 <> stream_byte B 1.
Proof.
  intros key block B. destruct C37_hypotheses as (D & _). split; [|vm_compute; discriminate].
  destruct (C37_chacha_stream toy_chacha key (D _) eq_refl) as (st & C0 & _).
  assert (C : created block B st) by (left; exists toy_chacha, key; auto).
  set (m1 := {| m_mem := st; m_mutex := Some 1%nat; m_thr := set_thr (fun _ => None) 1 (Some {| f_call := CallRand8; f_got := []; f_pc := Check |}); m_history := [] |}).
  assert (X1 : execution true block (at_rest st) m1).
  { eapply x_next with (tid := 1%nat); [apply x_refl|]. apply (t_begin true _ 1 (at_rest st) CallRand8); [reflexivity|reflexivity]. }
  destruct (C85_progress block B st m1 1 {| f_call := CallRand8; f_got := []; f_pc := Check |} C X1 eq_refl) as (m2 & v & X2 & Mu & H2).
  { unfold m1, capacity, reads. cbn. lia. }
  pose proof (execution_trans _ _ _ _ X1 X2) as X. destruct (reach_inv _ _ _ X) as (sm & _ & I). rewrite Mu in I. destruct I as [O _].
  eexists st, _, v. split; [exact C|]. split; [eapply x_next; [exact X|apply (t_begin true _ 0 m2 CallRand64); [apply O|intros _; exact Mu]]|].
  cbn [m_history m_mutex m_thr]. rewrite H2. split; [reflexivity|]. split; [reflexivity|]. split; [apply set_same|]. split; [rewrite set_other by lia; apply O|].
  unfold capacity, reads. cbn. lia.
Qed.

Print Assumptions C85_linearizable.
Print Assumptions C85_exclusive.
Print Assumptions C85_disjoint.
Print Assumptions C85_progress.
Print Assumptions C85_in_range.
Print Assumptions C85_single_thread_refuted.
