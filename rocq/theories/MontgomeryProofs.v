(** Proofs about Montgomery.v. *)
From Coq Require Import Zpow_facts.
From Verif Require Import Base BitsUtil Montgomery ZLemmas BitsUtilProofs.

(** ** Parameter creation *)

Lemma inverses_iter k m n :
  0 < k -> 0 < m -> m mod 2 = 1 -> m < 2 ^ k -> Z.of_nat n <= k ->
  let '(x, y) := Nat.iter n (inverses_step k m) (1, 0) in
  0 < x <= m /\ (1 < m -> x < m) /\ 0 <= y < 2 ^ k /\
  2 ^ k * x - m * y = 2 ^ (k - Z.of_nat n).
Proof.
  intros Hk Hm Hodd Hmk. pose proof (pow2_pos k ltac:(lia)) as P.
  pose proof (pow2_double k ltac:(lia)) as P2.
  assert (Ek : 2 ^ k = 2 * 2 ^ (k - 1)).
  { rewrite <- Z.pow_succ_r by lia. f_equal; lia. }
  pose proof (pow2_pos (k - 1) ltac:(lia)) as P1.
  assert (Ek2 : 2 <= 2 ^ k) by lia.
  induction n as [|n IH]; intros Hn.
  { cbn [Nat.iter nat_rect]. rewrite Z.sub_0_r, Z.mul_1_r, Z.mul_0_r. repeat split; lia. }
  cbn [Nat.iter nat_rect]. specialize (IH ltac:(lia)).
  change (nat_rect (fun _ => (Z * Z)%type) (1, 0) (fun _ => inverses_step k m) n)
    with (Nat.iter n (inverses_step k m) (1, 0)).
  destruct (Nat.iter n (inverses_step k m) (1, 0)) as [x y].
  destruct IH as (Hx & Hx1 & Hy & HI).
  assert (Es : 2 ^ (k - Z.of_nat n) = 2 * 2 ^ (k - Z.of_nat (S n))).
  { rewrite <- Z.pow_succ_r by lia. f_equal; lia. }
  pose proof (pow2_pos (k - Z.of_nat (S n)) ltac:(lia)) as Ps.
  set (T := 2 ^ (k - Z.of_nat (S n))) in *.
  assert (Hyev : y mod 2 = 0).
  { assert (E2 : m * y = 2 * (2 ^ (k - 1) * x - T)) by nia.
    assert (Hz : (m * y) mod 2 = 0) by (rewrite E2, Z.mul_comm; apply Z_mod_mult).
    rewrite Z.mul_mod, Hodd, Z.mul_1_l, Zmod_mod in Hz by lia. exact Hz. }
  unfold inverses_step, shr. rewrite Z.pow_1_r.
  destruct (Z.eqb_spec (x mod 2) 1) as [Eo|Eo].
  - rewrite !wrap_small by (rewrite P2; nia).
    assert (Ex : (x + m) mod 2 = 0).
    { rewrite Z.add_mod, Eo, Hodd by lia. reflexivity. }
    assert (Ey : (y + 2 ^ k) mod 2 = 0).
    { rewrite Ek, Z.mul_comm, Z_mod_plus_full. exact Hyev. }
    pose proof (Z.div_mod (x + m) 2 ltac:(lia)) as D1.
    pose proof (Z.div_mod (y + 2 ^ k) 2 ltac:(lia)) as D2.
    rewrite Ex in D1. rewrite Ey in D2.
    set (x' := (x + m) / 2) in *. set (y' := (y + 2 ^ k) / 2) in *.
    assert (EI : 2 ^ k * x' - m * y' = T) by nia.
    repeat split; lia.
  - assert (Ex : x mod 2 = 0) by (pose proof (Z.mod_pos_bound x 2); lia).
    pose proof (Z.div_mod x 2 ltac:(lia)) as D1. rewrite Ex in D1.
    pose proof (Z.div_mod y 2 ltac:(lia)) as D2. rewrite Hyev in D2.
    set (x' := x / 2) in *. set (y' := y / 2) in *.
    assert (EI : 2 ^ k * x' - m * y' = T) by nia.
    repeat split; lia.
Qed.

Lemma inverses_ok k m :
  0 < k -> 0 < m -> m mod 2 = 1 -> m < 2 ^ k ->
  let '(x, y) := inverses k m in
  0 < x <= m /\ (1 < m -> x < m) /\ 0 <= y < 2 ^ k /\ 2 ^ k * x - m * y = 1.
Proof.
  intros Hk Hm Ho Hmk. unfold inverses.
  pose proof (inverses_iter k m (Z.to_nat k) Hk Hm Ho Hmk ltac:(lia)) as H.
  destruct (Nat.iter _ _ _) as [x y]. destruct H as (Hx & Hx1 & Hy & HI).
  rewrite Z2Nat.id, Z.sub_diag in HI by lia.
  rewrite !wrap_small by lia. auto.
Qed.

(** What the proofs use of a parameter record built by [params_create]. *)
Record good (p : mparams) : Prop := {
  g_k : word_size (p_k p);
  g_m : 1 < p_m p;
  g_odd : p_m p mod 2 = 1;
  g_m4 : 4 * p_m p < 2 ^ p_k p;
  g_logm : p_logm p = blen (p_m p);
  g_rmm : p_rmm p = 2 ^ p_k p mod p_m p;
  g_rmmb : p_rmmb p = p_rmm p * 2 ^ p_k p / p_m p;
  g_rmmb_lt : 0 <= p_rmmb p < 2 ^ p_k p;
  g_invm : 0 <= p_invm p < 2 ^ p_k p;
  g_invr : 0 < p_invr p < p_m p;
  g_inv : 2 ^ p_k p * p_invr p - p_m p * p_invm p = 1;
  g_invrb : p_invrb p = p_invr p * 2 ^ p_k p / p_m p;
  g_invrb_lt : 0 <= p_invrb p < 2 ^ p_k p;
  g_bn : p_bn p = 2 ^ p_k p / p_m p;
  g_bnb : p_bnb p = 2 ^ (2 * p_k p - 1) / p_m p
}.

Lemma ws_pos k : word_size k -> 16 <= k <= 128.
Proof. unfold word_size; lia. Qed.

Lemma quot_lt m R c : 0 < m -> 0 < R -> 0 <= c < m -> 0 <= c * R / m < R.
Proof.
  intros Hm HR Hc. split; [apply Z.div_pos; nia|].
  apply Z.div_lt_upper_bound; nia.
Qed.

Lemma params_create_iff k m :
  word_size k -> 0 <= m < 2 ^ k ->
  ((exists p, params_create k m = Ok p) <-> (m mod 2 = 1 /\ m < 2 ^ (k - 2))).
Proof.
  intros Hk Hm. apply ws_pos in Hk. unfold params_create, shr.
  pose proof (pow2_pos (k - 2) ltac:(lia)) as P.
  assert (E : (m / 2 ^ (k - 2) = 0) <-> m < 2 ^ (k - 2)).
  { rewrite Z.div_small_iff by lia. lia. }
  pose proof (Z.mod_pos_bound m 2 ltac:(lia)).
  destruct (Z.eqb_spec (m / 2 ^ (k - 2)) 0); cbn [negb];
  destruct (Z.eqb_spec (m mod 2) 0); split; intros H'.
  all: try (destruct H' as [? H']; discriminate H').
  all: try lia.
  exists (params_make k m); reflexivity.
Qed.

Lemma create_good k m p :
  word_size k -> 1 < m -> params_create k m = Ok p ->
  good p /\ p_k p = k /\ p_m p = m.
Proof.
  intros Hk Hm H. pose proof (ws_pos _ Hk) as Hk'.
  unfold params_create, shr in H.
  pose proof (pow2_pos (k - 2) ltac:(lia)) as P.
  destruct (Z.eqb_spec (m / 2 ^ (k - 2)) 0) as [E|E]; cbn [negb] in H; [|discriminate].
  destruct (Z.eqb_spec (m mod 2) 0) as [E2|E2]; [discriminate|].
  injection H as <-.
  apply Z.div_small_iff in E; [|lia].
  assert (Hlt : m < 2 ^ (k - 2)) by lia.
  assert (Hodd : m mod 2 = 1) by (pose proof (Z.mod_pos_bound m 2); lia).
  assert (Ek : 2 ^ k = 4 * 2 ^ (k - 2)).
  { change 4 with (2 ^ 2). rewrite <- Z.pow_add_r by lia. f_equal; lia. }
  pose proof (pow2_pos k ltac:(lia)) as Pk. pose proof (pow2_double k ltac:(lia)) as P2.
  pose proof (inverses_ok k m ltac:(lia) ltac:(lia) Hodd ltac:(lia)) as HI.
  assert (H128 : 2 ^ k <= 2 ^ 128) by (apply Z.pow_le_mono_r; lia).
  unfold params_make. destruct (inverses k m) as [x y] eqn:EI.
  destruct HI as (Hx & Hx1 & Hy & HI). specialize (Hx1 Hm).
  pose proof (Z.mod_pos_bound (2 ^ k) m ltac:(lia)) as Hr.
  pose proof (quot_lt m (2 ^ k) (2 ^ k mod m) ltac:(lia) ltac:(lia) Hr) as Q1.
  pose proof (quot_lt m (2 ^ k) x ltac:(lia) ltac:(lia) ltac:(lia)) as Q2.
  cbn [fst snd].
  split; [|split; reflexivity].
  rewrite (wrap_small k (2 ^ k mod m)) by lia.
  rewrite !(wrap_small (2 * k)) by (rewrite P2; nia).
  rewrite !(wrap_small k) by assumption.
  constructor; cbn [p_k p_m p_logm p_rmm p_rmmb p_invm p_invr p_invrb p_bn p_bnb];
    try assumption; try reflexivity; try lia.
  apply bit_length_ok; lia.
Qed.

(** ** Reductions *)

Section Good.
Variable p : mparams.
Hypothesis G : good p.

Local Notation m := (p_m p).
Local Notation k := (p_k p).
Local Notation R := (2 ^ p_k p).

Lemma k_pos : 16 <= k <= 128.
Proof. apply ws_pos, G. Qed.

Lemma R_pos : 0 < R.
Proof. apply pow2_pos. pose proof k_pos; lia. Qed.

Lemma R2 : 2 ^ (2 * k) = R * R.
Proof. apply pow2_double. pose proof k_pos; lia. Qed.

Lemma m_gt1 : 1 < m.
Proof. apply G. Qed.

Lemma m4 : 4 * m < R.
Proof. apply G. Qed.

Lemma inv_mod : (R * p_invr p) mod m = 1.
Proof.
  pose proof (g_inv p G) as H. pose proof m_gt1.
  replace (R * p_invr p) with (1 + p_invm p * m) by lia.
  rewrite Z_mod_plus_full. apply Z.mod_small; lia.
Qed.

(** The residue represented by a stored word. *)
Definition val (n : Z) : Z := (n * p_invr p) mod m.

Lemma val_range n : 0 <= val n < m.
Proof. apply Z.mod_pos_bound. pose proof m_gt1; lia. Qed.

Lemma csub_ok x y :
  0 <= y < 2 * m -> y mod m = x mod m -> csub p y = x mod m.
Proof. pose proof m_gt1. intros. apply cond_sub_mod; lia. Qed.

(** Shared core of BarrettReduce, ExportInt, ImportInt and MulConstant. *)
Lemma shoup_core x c cb :
  0 <= x < R -> 0 <= c < m -> cb = c * R / m ->
  csub p (wrap k (wrap k (x * c) - wrap k (wrap k (shr (wrap (2 * k) (cb * x)) k) * m)))
  = (x * c) mod m.
Proof.
  intros Hx Hc Hcb. pose proof m_gt1. pose proof m4. pose proof R_pos as HR.
  pose proof (shoup_bound m R c x ltac:(lia) HR ltac:(lia) Hx) as B.
  cbv zeta in B. rewrite <- Hcb in B.
  pose proof (quot_lt m R c ltac:(lia) HR Hc) as Q. rewrite <- Hcb in Q.
  rewrite wrap_sub_sub. unfold shr.
  rewrite (wrap_small (2 * k)) by (rewrite R2; nia).
  assert (0 <= cb * x / R < R).
  { split; [apply Z.div_pos; nia|apply Z.div_lt_upper_bound; nia]. }
  rewrite (wrap_small k (cb * x / R)) by assumption.
  rewrite wrap_small by lia.
  apply csub_ok; [lia|].
  replace (x * c - cb * x / R * m) with (x * c + (- (cb * x / R)) * m) by ring.
  apply Z_mod_plus_full.
Qed.

Lemma barrett_reduce_ok x : 0 <= x < R -> barrett_reduce p x = x mod m.
Proof.
  intros Hx. unfold barrett_reduce.
  pose proof (shoup_core x 1 (p_bn p) Hx) as S. pose proof m_gt1. pose proof R_pos.
  rewrite Z.mul_1_r in S. rewrite (wrap_small k x) in S by assumption.
  apply S; [lia|]. rewrite Z.mul_1_l. apply G.
Qed.

(** No promotion overflow in the 16-bit instance of BarrettReduce. *)
Lemma barrett_product_le x : 0 <= x < R ->
  0 <= wrap k (shr (wrap (2 * k) (p_bn p * x)) k) * m <= x.
Proof.
  intros Hx. pose proof m_gt1. pose proof R_pos. pose proof k_pos. pose proof R2.
  rewrite (g_bn p G). fold R. unfold shr. fold R.
  assert (Q : 0 <= R / m * m <= R).
  { pose proof (Z.mul_div_le R m ltac:(lia)). pose proof (Z.div_pos R m ltac:(lia) ltac:(lia)). nia. }
  assert (QR : 0 <= R / m <= R) by nia.
  assert (B : 0 <= R / m * x < R * R).
  { split; [nia|]. apply Z.le_lt_trans with (R * x); nia. }
  rewrite (wrap_small (2 * k)) by lia.
  assert (D : 0 <= R / m * x / R < R).
  { split; [apply Z.div_pos; lia|]. apply Z.div_lt_upper_bound; lia. }
  rewrite wrap_small by exact D.
  split; [nia|].
  pose proof (Z.mul_div_le (R / m * x) R ltac:(lia)) as E.
  assert (R * (R / m * x / R * m) <= R * x).
  { replace (R * (R / m * x / R * m)) with ((R * (R / m * x / R)) * m) by ring.
    apply Z.le_trans with (R / m * x * m); [apply Z.mul_le_mono_nonneg_r; lia|].
    replace (R / m * x * m) with (R / m * m * x) by ring. apply Z.mul_le_mono_nonneg_r; lia. }
  nia.
Qed.

Lemma export_int_ok x : 0 <= x < R -> export_int p x = val x.
Proof.
  intros Hx. unfold export_int, val. apply shoup_core; [assumption| |].
  - pose proof (g_invr p G); lia.
  - apply G.
Qed.

Lemma import_int_val n : 0 <= n < R -> import_int p n = (n * R) mod m.
Proof.
  intros Hn. unfold import_int. pose proof m_gt1.
  rewrite shoup_core; try assumption.
  - rewrite (g_rmm p G). apply Zmult_mod_idemp_r.
  - rewrite (g_rmm p G). apply Z.mod_pos_bound; lia.
  - apply G.
Qed.

(** Representations reachable through the API: everything is fully reduced
    except that Negate can store [m] itself. *)
Definition rep (n : Z) : Prop := 0 <= n <= m.
Definition crep (n : Z) : Prop := 0 <= n < m.

Lemma crep_rep n : crep n -> rep n.
Proof. unfold crep, rep; lia. Qed.

Lemma rep_word n : rep n -> 0 <= n < R.
Proof. unfold rep. pose proof m4. pose proof m_gt1. lia. Qed.

Lemma mod_crep x : crep (x mod m).
Proof. apply Z.mod_pos_bound. pose proof m_gt1; lia. Qed.

Lemma val_mod n : val (n mod m) = val n.
Proof. unfold val. apply Zmult_mod_idemp_l. Qed.

Lemma val_mulR n : val (n * R) = n mod m.
Proof.
  unfold val. rewrite <- Z.mul_assoc, Z.mul_mod, inv_mod by (pose proof m_gt1; lia).
  rewrite Z.mul_1_r. apply Zmod_mod.
Qed.

Lemma import_val n : 0 <= n < R -> val (import_int p n) = n mod m.
Proof. intros; rewrite import_int_val by assumption. rewrite val_mod. apply val_mulR. Qed.

Lemma import_crep n : 0 <= n < R -> crep (import_int p n).
Proof. intros; rewrite import_int_val by assumption. apply mod_crep. Qed.

Lemma zero_val : val (import_zero p) = 0.
Proof. unfold val, import_zero. rewrite Z.mul_0_l. apply Z.mod_0_l. pose proof m_gt1; lia. Qed.

Lemma one_val : val (import_one p) = 1.
Proof.
  unfold val, import_one. rewrite (g_rmm p G), Zmult_mod_idemp_l. apply inv_mod.
Qed.

Lemma one_crep : crep (import_one p).
Proof. unfold import_one. rewrite (g_rmm p G). apply mod_crep. Qed.

(** [val] determines a canonical representation. *)
Lemma val_inj_mod a b : val a = val b -> a mod m = b mod m.
Proof.
  unfold val. intros H. pose proof m_gt1.
  assert (E : (a * p_invr p * R) mod m = (b * p_invr p * R) mod m).
  { rewrite <- (Zmult_mod_idemp_l (a * p_invr p)), H, Zmult_mod_idemp_l. reflexivity. }
  assert (F : forall c, (c * p_invr p * R) mod m = c mod m).
  { intros c. replace (c * p_invr p * R) with (c * (R * p_invr p)) by ring.
    rewrite Z.mul_mod, inv_mod, Z.mul_1_r by lia. apply Zmod_mod. }
  rewrite !F in E. exact E.
Qed.

Lemma val_inj a b : crep a -> crep b -> val a = val b -> a = b.
Proof.
  unfold crep. intros Ha Hb H. apply val_inj_mod in H.
  rewrite !Z.mod_small in H by assumption. exact H.
Qed.

(** ** Addition, subtraction, negation *)

Lemma madd_ok a b : 0 <= a -> 0 <= b -> a + b < R -> madd p a b = (a + b) mod m.
Proof.
  intros. unfold madd. rewrite wrap_small by lia. apply barrett_reduce_ok; lia.
Qed.

Lemma msub_ok a b : 0 <= a -> rep b -> a + m < R -> msub p a b = (a - b) mod m.
Proof.
  unfold rep. intros. unfold msub. rewrite wrap_small by lia.
  rewrite barrett_reduce_ok by lia.
  replace (a + (m - b)) with (a - b + 1 * m) by ring. apply Z_mod_plus_full.
Qed.

Lemma mneg_ok a : rep a -> mneg p a = m - a.
Proof. intros H. unfold mneg. apply wrap_small. pose proof (rep_word _ H). unfold rep in H. pose proof m4. lia. Qed.

Lemma val_add_mod a b : val (a + b) = (val a + val b) mod m.
Proof. unfold val. rewrite Z.mul_add_distr_r. apply Zplus_mod. Qed.

Lemma val_sub_mod a b : val (a - b) = (val a - val b) mod m.
Proof. unfold val. rewrite Z.mul_sub_distr_r. apply Zminus_mod. Qed.

Lemma val_m : val m = 0.
Proof. unfold val. rewrite Z.mul_comm. apply Z_mod_mult. Qed.

Lemma madd_val a b : rep a -> rep b -> val (madd p a b) = (val a + val b) mod m.
Proof.
  unfold rep. intros. pose proof m4. rewrite madd_ok by lia.
  rewrite val_mod. apply val_add_mod.
Qed.

Lemma msub_val a b : rep a -> rep b -> val (msub p a b) = (val a - val b) mod m.
Proof.
  unfold rep. intros. pose proof m4. rewrite msub_ok by (unfold rep; lia).
  rewrite val_mod. apply val_sub_mod.
Qed.

Lemma mneg_val a : rep a -> val (mneg p a) = (- val a) mod m.
Proof.
  intros H. rewrite mneg_ok by assumption.
  rewrite val_sub_mod, val_m. reflexivity.
Qed.

Lemma madd_crep a b : rep a -> rep b -> crep (madd p a b).
Proof. unfold rep. intros. pose proof m4. rewrite madd_ok by lia. apply mod_crep. Qed.

Lemma msub_crep a b : rep a -> rep b -> crep (msub p a b).
Proof. intros. pose proof m4. unfold rep in *. rewrite msub_ok by (unfold rep; lia). apply mod_crep. Qed.

Lemma mneg_rep a : rep a -> rep (mneg p a).
Proof. intros H. rewrite mneg_ok by assumption. unfold rep in *. lia. Qed.

(** ** Montgomery multiplication *)

(** REDC: for every product [t <= m * (R-1)] (what the callers guarantee). *)
Lemma redc_ok t :
  0 <= t < m * R ->
  let u := wrap k (wrap k t * p_invm p) in
  csub p (wrap k (shr (wrap (2 * k) (t + wrap (2 * k) (m * u))) k)) = (t * p_invr p) mod m.
Proof.
  intros Ht u. pose proof m_gt1. pose proof m4. pose proof R_pos as HR.
  assert (Hu : 0 <= u < R) by (apply wrap_range; pose proof k_pos; lia).
  rewrite (wrap_small (2 * k) (m * u)) by (rewrite R2; nia).
  rewrite (wrap_small (2 * k)) by (rewrite R2; nia).
  (* t + m*u is divisible by R *)
  assert (Hdiv : exists w, t + m * u = w * R).
  { unfold u. rewrite wrap_mul_l. unfold wrap.
    rewrite Z.mod_eq by lia. set (q := t * p_invm p / R).
    exists (t * p_invr p - m * q).
    pose proof (g_inv p G) as HI.
    replace (m * (t * p_invm p - R * q)) with (t * (m * p_invm p) - R * q * m) by ring.
    replace (m * p_invm p) with (R * p_invr p - 1) by lia. ring. }
  destruct Hdiv as [w Hw]. unfold shr. rewrite Hw, Z.div_mul by lia.
  assert (0 <= w < 2 * m) by nia.
  rewrite wrap_small by lia.
  apply csub_ok; [assumption|].
  (* w = w * (R*invr) = (t + m u) invr = t invr (mod m) *)
  rewrite <- (Z.mul_1_r w) at 1. rewrite <- inv_mod at 1.
  rewrite Zmult_mod_idemp_r.
  replace (w * (R * p_invr p)) with (w * R * p_invr p) by ring. rewrite <- Hw.
  replace ((t + m * u) * p_invr p) with (t * p_invr p + (u * p_invr p) * m) by ring.
  apply Z_mod_plus_full.
Qed.

Lemma mmul_ok a b : 0 <= a -> 0 <= b -> a * b < m * R -> mmul p a b = (a * b * p_invr p) mod m.
Proof.
  intros Ha Hb Hab. unfold mmul. pose proof m_gt1. pose proof m4. pose proof R_pos. pose proof k_pos.
  rewrite (wrap_small (2 * k) (a * b)) by (rewrite R2; nia).
  rewrite (wrap_wrap_le k (2 * k)) by lia.
  rewrite <- (wrap_mul_l k (a * b)).
  apply redc_ok. nia.
Qed.

Lemma rep_prod a b : rep a -> rep b -> 0 <= a * b < m * R.
Proof. unfold rep. pose proof m4. pose proof m_gt1. nia. Qed.

Lemma val_mul_mod a b : val (a * b * p_invr p) = (val a * val b) mod m.
Proof.
  unfold val. replace (a * b * p_invr p * p_invr p) with ((a * p_invr p) * (b * p_invr p)) by ring.
  apply Zmult_mod.
Qed.

Lemma mmul_val a b : rep a -> rep b -> val (mmul p a b) = (val a * val b) mod m.
Proof.
  intros Ha Hb. pose proof (rep_prod a b Ha Hb). unfold rep in *.
  rewrite mmul_ok by lia. rewrite val_mod. apply val_mul_mod.
Qed.

Lemma mmul_crep a b : rep a -> rep b -> crep (mmul p a b).
Proof.
  intros Ha Hb. pose proof (rep_prod a b Ha Hb). unfold rep in *.
  rewrite mmul_ok by lia. apply mod_crep.
Qed.

(** ** Constants *)

(** A correct (constant, constant_barrett) pair for the residue [c]. *)
Definition const_for (c : Z) (cc : Z * Z) : Prop :=
  0 <= c < m /\ cc = (c, c * R / m).

Lemma get_constant_ok a : 0 <= a < R -> const_for (val a) (get_constant p a).
Proof.
  intros Ha. unfold get_constant, const_for. rewrite export_int_ok by assumption.
  pose proof (val_range a) as V. split; [exact V|]. f_equal.
  pose proof m_gt1. pose proof m4. pose proof R_pos as HR.
  rewrite (wrap_small (2 * k)) by (rewrite R2; nia).
  apply wrap_small. apply quot_lt; lia.
Qed.

Lemma mul_constant_ok n c cc :
  0 <= n < R -> const_for c cc -> mul_constant p n cc = (n * c) mod m.
Proof.
  intros Hn [Hc ->]. unfold mul_constant. cbn [fst snd].
  apply shoup_core; auto.
Qed.

Lemma mul_constant_val n c cc :
  0 <= n < R -> const_for c cc -> val (mul_constant p n cc) = (val n * c) mod m.
Proof.
  intros Hn Hc. rewrite (mul_constant_ok n c cc Hn Hc). rewrite val_mod. unfold val.
  rewrite Zmult_mod_idemp_l. f_equal. ring.
Qed.

Lemma mul_constant_crep n c cc :
  0 <= n < R -> const_for c cc -> crep (mul_constant p n cc).
Proof. intros Hn Hc. rewrite (mul_constant_ok n c cc Hn Hc). apply mod_crep. Qed.

Lemma fused_mul_constant_add_ok n a c cc :
  0 <= n -> 0 <= a -> a + n < R -> const_for c cc ->
  fused_mul_constant_add p n a cc = (n + a * c) mod m.
Proof.
  intros Hn Ha Han [Hc ->]. unfold fused_mul_constant_add. cbn [fst snd].
  pose proof m_gt1. pose proof m4. pose proof R_pos as HR.
  pose proof (shoup_bound2 m R c a n ltac:(lia) HR ltac:(lia) Ha Hn Han) as B.
  cbv zeta in B. rewrite <- (g_bn p G) in B.
  pose proof (quot_lt m R c ltac:(lia) HR Hc) as Q.
  set (cb := c * R / m) in *.
  assert (Hbn : 0 <= p_bn p < R).
  { rewrite (g_bn p G). split; [apply Z.div_pos; lia|apply Z.div_lt_upper_bound; nia]. }
  assert (0 <= cb * a <= R * a) by nia.
  assert (0 <= p_bn p * n <= R * n) by nia.
  assert (R * a + R * n < R * R) by nia.
  assert (0 <= R * a) by nia. assert (0 <= R * n) by nia.
  rewrite (wrap_small (2 * k) (cb * a)) by (rewrite R2; lia).
  rewrite (wrap_small (2 * k) (p_bn p * n)) by (rewrite R2; lia).
  rewrite (wrap_small (2 * k)) by (rewrite R2; lia).
  unfold shr. set (q := (cb * a + p_bn p * n) / R) in *.
  assert (0 <= q < R).
  { unfold q. split; [apply Z.div_pos; lia|apply Z.div_lt_upper_bound; lia]. }
  rewrite (wrap_small k q) by assumption.
  replace (n + (a * c - q * m)) with (n + a * c - q * m) by ring.
  rewrite wrap_small by lia.
  apply csub_ok; [lia|].
  replace (n + a * c - q * m) with (n + a * c + (- q) * m) by ring. apply Z_mod_plus_full.
Qed.

Lemma fused_mul_constant_add_val n a c cc :
  rep n -> rep a -> const_for c cc ->
  val (fused_mul_constant_add p n a cc) = (val n + val a * c) mod m.
Proof.
  unfold rep. intros Hn Ha Hc. pose proof m4.
  rewrite (fused_mul_constant_add_ok n a c cc) by (assumption || lia).
  rewrite val_mod, val_add_mod. unfold val.
  rewrite Zplus_mod_idemp_r, Zplus_mod_idemp_l.
  rewrite <- (Zplus_mod_idemp_r ((a * p_invr p) mod m * c)).
  rewrite <- (Zplus_mod_idemp_l (n * p_invr p)).
  rewrite Zmult_mod_idemp_l, Zplus_mod_idemp_r. f_equal. f_equal. ring.
Qed.

Lemma fused_mul_constant_add_crep n a c cc :
  rep n -> rep a -> const_for c cc -> crep (fused_mul_constant_add p n a cc).
Proof.
  unfold rep. intros Hn Ha Hc. pose proof m4.
  rewrite (fused_mul_constant_add_ok n a c cc) by (assumption || lia). apply mod_crep.
Qed.

(** ** Fused multiply-add *)

Lemma fused_mul_add_ok n a b r :
  rep n -> rep a -> rep b -> fused_mul_add p n a b = Ok r ->
  crep r /\ val r = (val n + val a * val b) mod m.
Proof.
  intros Hn Ha Hb. unfold fused_mul_add.
  pose proof m_gt1. pose proof m4. pose proof R_pos as HR. pose proof k_pos.
  pose proof one_crep as Ho. unfold import_one in Ho.
  unfold rep, crep in Hn, Ha, Hb, Ho.
  assert (0 <= p_rmm p * n <= m * m) by nia.
  assert (0 <= a * b <= m * m) by nia.
  rewrite !(wrap_small (2 * k)  (p_rmm p * n)) by (rewrite R2; nia).
  rewrite !(wrap_small (2 * k) (a * b)) by (rewrite R2; nia).
  rewrite !(wrap_small (2 * k) (p_rmm p * n + a * b)) by (rewrite R2; nia).
  set (t := p_rmm p * n + a * b) in *.
  unfold mul_int. destruct ((k =? 16) && (2 ^ 31 <=? wrap k t * p_invm p)); cbn [bind]; [discriminate|].
  intros E. assert (Er : r = (t * p_invr p) mod m).
  { injection E as <-. apply redc_ok. unfold t; nia. }
  subst r. split; [apply mod_crep|].
  rewrite val_mod. unfold t.
  rewrite Z.mul_add_distr_r, val_add_mod, !val_mul_mod.
  fold (import_one p). rewrite one_val, Z.mul_1_l.
  rewrite (Z.mod_small (val n)) by apply val_range.
  apply Zplus_mod_idemp_r.
Qed.

Lemma fused_mul_add_defined n a b :
  k <> 16 -> exists r, fused_mul_add p n a b = Ok r.
Proof.
  intros Hk. unfold fused_mul_add, mul_int.
  destruct (Z.eqb_spec k 16); [contradiction|]. cbn [andb bind]. eexists; reflexivity.
Qed.

(** ** Barrett reduction of a double word *)

Lemma barrett_reduce_bigint_ok x :
  0 <= x < 2 ^ (2 * k - 1) -> barrett_reduce_bigint p x = x mod m.
Proof.
  intros Hx. unfold barrett_reduce_bigint.
  pose proof m_gt1. pose proof m4. pose proof R_pos as HR. pose proof k_pos.
  destruct (Z.eqb_spec k 128) as [E|E].
  - apply wrap_small. pose proof (Z.mod_pos_bound x m). lia.
  - set (B := 2 ^ (2 * k - 1)) in *.
    assert (HB : 2 * B = R * R).
    { unfold B. rewrite <- R2, <- Z.pow_succ_r by lia. f_equal; lia. }
    assert (H4 : 2 ^ (4 * k) = (2 * B) * (2 * B)).
    { rewrite HB, <- R2, <- Z.pow_add_r by lia. f_equal; lia. }
    pose proof (shoup_bound m B 1 x ltac:(lia) ltac:(lia) ltac:(lia) Hx) as S.
    cbv zeta in S. rewrite Z.mul_1_l, Z.mul_1_r in S.
    rewrite (g_bnb p G). fold B.
    assert (Hq : 0 <= B / m <= B).
    { split; [apply Z.div_pos; lia|apply Z.div_le_upper_bound; nia]. }
    rewrite (wrap_small (4 * k)) by (rewrite H4; nia).
    unfold shr. fold B. set (q := B / m * x / B) in *.
    (* the quotient itself may exceed one word; only its residue matters *)
    rewrite wrap_mul_l, wrap_sub_sub.
    rewrite wrap_small by lia.
    apply csub_ok; [lia|].
    replace (x - q * m) with (x + (- q) * m) by ring. apply Z_mod_plus_full.
Qed.

(** ** Exponentiation *)

Lemma mod_exp_loop_ok fuel : forall r b e,
  rep r -> rep b -> 0 <= e < 2 ^ Z.of_nat fuel ->
  rep (mod_exp_loop fuel p r b e) /\
  (crep r -> crep (mod_exp_loop fuel p r b e)) /\
  val (mod_exp_loop fuel p r b e) = (val r * val b ^ e) mod m.
Proof.
  pose proof m_gt1 as Hm.
  induction fuel as [|f IH]; intros r b e Hr Hb He; cbn [mod_exp_loop].
  - cbn in He. assert (e = 0) by lia. subst e. rewrite Z.pow_0_r, Z.mul_1_r.
    split; [assumption|]. split; [auto|]. symmetry. apply Z.mod_small, val_range.
  - rewrite Nat2Z.inj_succ, Z.pow_succ_r in He by lia.
    rewrite Z.gtb_ltb. destruct (Z.ltb_spec 0 e) as [Hpos|Hpos].
    + unfold shr. rewrite Z.pow_1_r.
      pose proof (Z.div_mod e 2 ltac:(lia)) as D. pose proof (Z.mod_pos_bound e 2 ltac:(lia)) as Md.
      assert (He2 : 0 <= e / 2 < 2 ^ Z.of_nat f) by lia.
      pose proof (crep_rep _ (mmul_crep b b Hb Hb)) as Hbb.
      assert (Pw : forall v, v ^ e = v ^ (e mod 2) * (v * v) ^ (e / 2)).
      { intros v. rewrite D at 1. rewrite Z.add_comm, Z.pow_add_r by lia. f_equal.
        rewrite Z.pow_mul_r by lia. f_equal. rewrite Z.pow_2_r. reflexivity. }
      destruct (Z.eqb_spec (e mod 2) 1) as [E|E].
      * pose proof (mmul_crep r b Hr Hb) as Hrb.
        destruct (IH (mmul p r b) (mmul p b b) (e / 2) (crep_rep _ Hrb) Hbb He2) as (I1 & I2 & I3).
        split; [exact I1|]. split; [auto|]. rewrite I3, !mmul_val by assumption.
        rewrite Pw, E, Z.pow_1_r.
        rewrite Zmult_mod_idemp_l, <- (Zmult_mod_idemp_r (((val b * val b) mod m) ^ _)).
        rewrite <- Zpower_mod by lia. rewrite Zmult_mod_idemp_r. f_equal. ring.
      * destruct (IH r (mmul p b b) (e / 2) Hr Hbb He2) as (I1 & I2 & I3).
        split; [exact I1|]. split; [auto|]. rewrite I3, !mmul_val by assumption.
        assert (E0 : e mod 2 = 0) by lia. rewrite Pw, E0, Z.pow_0_r, Z.mul_1_l.
        rewrite <- (Zmult_mod_idemp_r (((val b * val b) mod m) ^ _)).
        rewrite <- Zpower_mod by lia. rewrite Zmult_mod_idemp_r. reflexivity.
    + assert (e = 0) by lia. subst e. rewrite Z.pow_0_r, Z.mul_1_r.
      split; [assumption|]. split; [auto|]. symmetry. apply Z.mod_small, val_range.
Qed.

Lemma mod_exp_ok a e : rep a -> 0 <= e < R ->
  crep (mod_exp p a e) /\ val (mod_exp p a e) = (val a ^ e) mod m.
Proof.
  intros Ha He. pose proof k_pos. pose proof one_crep as Ho.
  destruct (mod_exp_loop_ok (Z.to_nat k) (import_one p) a e (crep_rep _ Ho) Ha) as (I1 & I2 & I3).
  { rewrite Z2Nat.id by lia. exact He. }
  unfold mod_exp. split; [auto|]. rewrite I3, one_val, Z.mul_1_l. reflexivity.
Qed.

(** ** Extended Euclid *)

Lemma euclid_ok fuel : forall x a b sa sb (j : bool),
  0 <= a -> 0 <= b -> a < R -> b < R -> (0 < a \/ 0 < b) ->
  0 < sa -> 0 <= sb -> (0 < b -> 0 < sb) ->
  a * sb + b * sa = m -> sa <= m -> sb <= m ->
  (if j then (a + sa * x) mod m = 0 /\ (b - sb * x) mod m = 0
   else (a - sa * x) mod m = 0 /\ (b + sb * x) mod m = 0) ->
  Z.gcd a b = Z.gcd x m ->
  a * b < 2 ^ (Z.of_nat fuel - 1) -> b <= a -> (1 <= fuel)%nat ->
  exists r s j', euclid_loop fuel k a b sa sb j = Ok (r, s, j') /\
    r = Z.gcd x m /\ 0 <= s <= m /\
    (if j' : bool then (r + s * x) mod m = 0 else (r - s * x) mod m = 0).
Proof.
  pose proof m_gt1 as Hm. pose proof m4 as Hm4.
  assert (STEP : forall x a b sa sb (j : bool),
    0 <= a -> 0 < b -> 0 < sa -> 0 < sb -> a * sb + b * sa = m ->
    (if j then (a + sa * x) mod m = 0 /\ (b - sb * x) mod m = 0
     else (a - sa * x) mod m = 0 /\ (b + sb * x) mod m = 0) ->
    (if negb j then (b + sb * x) mod m = 0 /\ (a mod b - (sa + a / b * sb) * x) mod m = 0
     else (b - sb * x) mod m = 0 /\ (a mod b + (sa + a / b * sb) * x) mod m = 0)).
  { intros x a b sa sb j Ha Hb Hsa Hsb HI HJ.
    rewrite (Z.mod_eq a b) by lia. set (q := a / b).
    destruct j; cbn [negb]; destruct HJ as [J1 J2]; (split; [assumption|]).
    - replace (a - b * q + (sa + q * sb) * x) with ((a + sa * x) - q * (b - sb * x)) by ring.
      rewrite Zminus_mod, J1, Z.mul_mod, J2, Z.mul_0_r by lia. reflexivity.
    - replace (a - b * q - (sa + q * sb) * x) with ((a - sa * x) - q * (b + sb * x)) by ring.
      rewrite Zminus_mod, J1, Z.mul_mod, J2, Z.mul_0_r by lia. reflexivity. }
  induction fuel as [|f IH]; intros x a b sa sb j Ha Hb HaR HbR Hab Hsa Hsb Hsb' HI Hsam Hsbm HJ HG Hprod Hba Hf; [lia|].
  cbn [euclid_loop]. destruct (Z.eqb_spec b 0) as [->|Hb0].
  - exists a, sa, j. split; [reflexivity|].
    rewrite Z.gcd_0_r, Z.abs_eq in HG by lia.
    split; [exact HG|]. split; [lia|]. destruct j; apply HJ.
  - assert (Hbp : 0 < b) by lia. specialize (Hsb' Hbp).
    pose proof (Z.div_mod a b ltac:(lia)) as D.
    pose proof (Z.mod_pos_bound a b Hbp) as Mo.
    set (q := a / b) in *. set (c := a mod b) in *.
    assert (Hq : 1 <= q) by (unfold q; apply Z.div_le_lower_bound; lia).
    assert (HI' : b * (sa + q * sb) + c * sb = m).
    { rewrite <- HI, D. ring. }
    assert (Hqs0 : 0 <= q * sb) by nia.
    set (S := sa + q * sb) in *.
    assert (Hcs : 0 <= c * sb) by nia.
    assert (Hs1 : 1 * S <= b * S) by (apply Z.mul_le_mono_nonneg_r; lia).
    assert (Hs' : 0 < S <= m) by lia.
    assert (Hqs : 0 <= q * sb < m) by (subst S; lia).
    unfold mul_int.
    assert (Hno : (k =? 16) && (2 ^ 31 <=? q * sb) = false).
    { destruct (Z.eqb_spec k 16) as [E|E]; cbn [andb]; [|reflexivity].
      apply Z.leb_gt. rewrite E in Hm4. change (2 ^ 16) with 65536 in Hm4.
      change (2 ^ 31) with 2147483648. lia. }
    rewrite Hno. cbn [bind].
    rewrite (wrap_small k (q * sb)) by lia. fold S.
    rewrite (wrap_small k) by lia.
    assert (Hfp : (f <> 0)%nat).
    { intros ->. cbn in Hprod. nia. }
    assert (Ef : 2 ^ (Z.of_nat (Datatypes.S f) - 1) = 2 * 2 ^ (Z.of_nat f - 1)).
    { rewrite <- Z.pow_succ_r by lia. f_equal; lia. }
    apply (IH x); try lia.
    + pose proof (STEP x a b sa sb j Ha Hbp Hsa Hsb' HI HJ) as Q.
      fold q c in Q. destruct (negb j); exact Q.
    + rewrite <- HG. rewrite (Z.gcd_comm a b). unfold c.
      rewrite (Z.gcd_comm b (a mod b)). rewrite Z.gcd_mod by lia. reflexivity.
    + assert (b * 1 <= b * q) by (apply Z.mul_le_mono_nonneg_l; lia).
      assert (b * (2 * c) <= b * a) by (apply Z.mul_le_mono_nonneg_l; lia).
      assert (b * c * 2 = b * (2 * c)) by ring. assert (a * b = b * a) by ring. lia.
Qed.

Lemma mult_inverse_fast_ok a :
  rep a ->
  let x := val a in
  if Z.gcd x m =? 1 then
    exists r, mult_inverse_fast p a = Ok r /\ crep r /\ (val r * x) mod m = 1
  else mult_inverse_fast p a = Err InvalidArgument.
Proof.
  intros Ha x. unfold mult_inverse_fast.
  pose proof m_gt1 as Hm. pose proof m4 as Hm4. pose proof k_pos as Hk. pose proof R_pos as HR.
  rewrite export_int_ok by (apply rep_word; assumption). fold x.
  pose proof (val_range a) as Hx. fold x in Hx.
  rewrite (wrap_small k (m - x)) by lia.
  (* the first iteration may only swap *)
  assert (HR2 : R * R = 2 ^ (2 * k)) by (symmetry; apply R2).
  assert (L : exists r s j', euclid_loop (Z.to_nat (2 * k + 4)) k x (m - x) 1 1 false = Ok (r, s, j') /\
    r = Z.gcd x m /\ 0 <= s <= m /\
    (if j' : bool then (r + s * x) mod m = 0 else (r - s * x) mod m = 0)).
  { destruct (Z.le_gt_cases (m - x) x) as [Hle|Hgt].
    - apply (euclid_ok _ x); try lia.
      + rewrite !Z.mul_1_l. split; [rewrite Z.sub_diag; apply Z.mod_0_l; lia|].
        replace (m - x + x) with m by ring. apply Z_mod_same_full.
      + rewrite <- (Z.gcd_sub_diag_r x m). f_equal.
      + rewrite Z2Nat.id by lia.
        assert (2 ^ (2 * k) <= 2 ^ (2 * k + 4 - 1)) by (apply Z.pow_le_mono_r; lia). nia.
    - replace (Z.to_nat (2 * k + 4)) with (S (Z.to_nat (2 * k + 3))) by lia.
      cbn [euclid_loop]. destruct (Z.eqb_spec (m - x) 0); [lia|].
      rewrite Z.div_small by lia. rewrite Z.mod_small by lia.
      unfold mul_int. rewrite Z.mul_0_l.
      replace ((k =? 16) && (2 ^ 31 <=? 0)) with false by (rewrite andb_comm; reflexivity).
      cbn [bind negb]. rewrite (wrap_small k 0) by lia. rewrite (wrap_small k) by lia.
      apply (euclid_ok _ x); try lia.
      + cbn [Z.add]. rewrite !Z.mul_1_l. split.
        * replace (m - x + x) with m by ring. apply Z_mod_same_full.
        * rewrite Z.sub_diag; apply Z.mod_0_l; lia.
      + rewrite Z.gcd_comm. rewrite <- (Z.gcd_sub_diag_r x m). f_equal.
      + rewrite Z2Nat.id by lia.
        assert (2 ^ (2 * k) <= 2 ^ (2 * k + 3 - 1)) by (apply Z.pow_le_mono_r; lia). nia. }
  destruct L as (r & s & j' & E & Er & Hs & HJ). rewrite E. cbn [bind].
  rewrite <- Er. destruct (Z.eqb_spec r 1) as [E1|E1]; cbn [negb]; [|reflexivity].
  eexists; split; [reflexivity|].
  assert (W : forall w, 0 <= w < R -> (w * x - 1) mod m = 0 ->
     crep (import_int p w) /\ (val (import_int p w) * x) mod m = 1).
  { intros w Hw Ew. split; [apply import_crep; assumption|].
    rewrite import_val by assumption. rewrite Zmult_mod_idemp_l.
    replace (w * x) with ((w * x - 1) + 1) by ring.
    rewrite <- Zplus_mod_idemp_l, Ew. apply Z.mod_small; lia. }
  destruct j'.
  - rewrite wrap_small by lia. apply W; [lia|].
    replace ((m - s) * x - 1) with (x * m - (r + s * x)) by (rewrite E1; ring).
    rewrite Zminus_mod, HJ, Z_mod_mult. apply Z.mod_0_l; lia.
  - apply W; [lia|].
    replace (s * x - 1) with (0 - (r - s * x)) by (rewrite E1; ring).
    rewrite Zminus_mod, HJ. apply Z.mod_0_l; lia.
Qed.

End Good.
