(** Pocklington's criterion: a prime q is recognised from a factored part F of
    q - 1 with (F + 1)^2 > q and one witness for each prime factor of F. Used to
    prove that the moduli the library ships are prime. *)
From Coq Require Import Znumtheory Zpow_facts.
From Verif Require Import Base FinSum Ring Fermat RnsSpec CrtMath.

Section Order.
Context (r a : Z) (Hr : prime r) (Ha : ~ (r | a)).

Lemma not_div_pow e : 0 <= e -> ~ (r | a ^ e).
Proof.
  intros He. pattern e. apply natlike_ind; [|intros x Hx IH|exact He].
  - intros D. change (a ^ 0) with 1 in D. pose proof (prime_ge_2 r Hr). apply Z.divide_1_r in D. lia.
  - rewrite Z.pow_succ_r by exact Hx. intros D. apply prime_mult in D; [|exact Hr]. tauto.
Qed.

Lemma pow_one_sub x y : 0 <= y <= x -> cong r (a ^ x) 1 -> cong r (a ^ y) 1 -> cong r (a ^ (x - y)) 1.
Proof.
  intros Hxy Cx Cy. unfold cong in *.
  assert (D : (r | a ^ y * (a ^ (x - y) - 1))).
  { replace (a ^ y * (a ^ (x - y) - 1)) with ((a ^ x - 1) - (a ^ y - 1)).
    - apply Z.divide_sub_r; assumption.
    - rewrite Z.mul_sub_distr_l, <- Z.pow_add_r by lia. replace (y + (x - y)) with x by lia. ring. }
  apply prime_mult in D; [|exact Hr]. destruct D as [D|D]; [|exact D].
  exfalso. revert D. apply not_div_pow. lia.
Qed.

(** two exponents that give 1 have a greatest common divisor that gives 1 *)
Lemma pow_one_gcd n : forall x y, 0 <= x -> 0 <= y -> x + y < Z.of_nat n ->
  cong r (a ^ x) 1 -> cong r (a ^ y) 1 -> cong r (a ^ Z.gcd x y) 1.
Proof.
  induction n as [|n IH]; intros x y Hx Hy Hn Cx Cy; [lia|].
  destruct (Z.eq_dec x 0) as [->|Nx]; [rewrite Z.gcd_0_l, Z.abs_eq by lia; exact Cy|].
  destruct (Z.eq_dec y 0) as [->|Ny]; [rewrite Z.gcd_0_r, Z.abs_eq by lia; exact Cx|].
  destruct (Z_le_gt_dec y x) as [L|L].
  - rewrite Z.gcd_comm, <- (Z.gcd_sub_diag_r y x), Z.gcd_comm. apply IH; try lia; [|exact Cy]. apply pow_one_sub; [lia|assumption|assumption].
  - rewrite <- (Z.gcd_sub_diag_r x y). apply IH; try lia; [exact Cx|]. apply pow_one_sub; [lia|assumption|assumption].
Qed.
End Order.

(** a divisor of p^(e+1) that does not divide p^e is p^(e+1) *)
Lemma divides_prime_power p e d : prime p -> 0 <= e -> 0 <= d -> (d | p ^ (e + 1)) -> ~ (d | p ^ e) -> d = p ^ (e + 1).
Proof.
  intros Hp He Hd D N. pose proof (prime_ge_2 p Hp) as P2.
  destruct (Zdivide_power_2 d p (e + 1) ltac:(lia) Hd Hp D) as [m ->].
  assert (0 < p ^ (e + 1)) by (apply Z.pow_pos_nonneg; lia).
  assert (M0 : 0 <= m).
  { destruct (Z.lt_ge_cases m 0) as [L|L]; [|lia]. rewrite Z.pow_neg_r in D by exact L. destruct D as [z Ez]. lia. }
  assert (m <= e + 1).
  { apply Z.divide_pos_le in D; [|lia]. apply (Z.pow_le_mono_r_iff p); lia. }
  destruct (Z.eq_dec m (e + 1)) as [->|Ne]; [reflexivity|].
  exfalso. apply N. exists (p ^ (e - m)). rewrite <- Z.pow_add_r by lia. f_equal. lia.
Qed.

(** the part of the argument for one prime power p^(e+1) dividing q - 1 *)
Lemma pocklington_step q r p e a : 1 < q -> prime r -> (r | q) -> prime p -> 0 <= e -> (p ^ (e + 1) | q - 1) ->
  a ^ (q - 1) mod q = 1 -> Z.gcd (a ^ ((q - 1) / p) mod q - 1) q = 1 -> (p ^ (e + 1) | r - 1).
Proof.
  intros Hq Hr Dr Hp He Dp C1 C2. pose proof (prime_ge_2 r Hr) as R2. pose proof (prime_ge_2 p Hp) as P2.
  destruct Dp as [u Eu]. assert (PE : 0 < p ^ e) by (apply Z.pow_pos_nonneg; lia).
  assert (Ep : p ^ (e + 1) = p * p ^ e) by (rewrite Z.pow_add_r, Z.pow_1_r by lia; ring).
  assert (U0 : 0 < u) by (clear - Hq Eu Ep PE P2; nia).
  assert (A1 : cong r (a ^ (q - 1)) 1).
  { unfold cong. apply Z.divide_trans with q; [exact Dr|]. exists (a ^ (q - 1) / q).
    pose proof (Z.div_mod (a ^ (q - 1)) q ltac:(lia)). lia. }
  assert (Na : ~ (r | a)).
  { intros D. unfold cong in A1. assert (D' : (r | a ^ (q - 1))).
    { replace (q - 1) with (1 + (q - 2)) by lia. rewrite Z.pow_add_r, Z.pow_1_r by lia. apply Z.divide_mul_l, D. }
    pose proof (Z.divide_sub_r _ _ _ D' A1) as D2. replace (a ^ (q - 1) - (a ^ (q - 1) - 1)) with 1 in D2 by lia.
    apply Z.divide_1_r in D2. lia. }
  assert (N2 : ~ cong r (a ^ ((q - 1) / p)) 1).
  { intros D. unfold cong in D. set (x := a ^ ((q - 1) / p)) in *.
    assert (D' : (r | x mod q - 1)).
    { rewrite Z.mod_eq by lia. replace (x - q * (x / q) - 1) with ((x - 1) - q * (x / q)) by ring.
      apply Z.divide_sub_r; [exact D|apply Z.divide_mul_l, Dr]. }
    pose proof (Z.gcd_greatest _ _ _ D' Dr) as G. rewrite C2 in G. apply Z.divide_1_r in G. lia. }
  set (b := a ^ u). assert (Nb : ~ (r | b)) by (apply not_div_pow; [exact Hr|exact Na|lia]).
  assert (B1 : cong r (b ^ p ^ (e + 1)) 1).
  { unfold b. rewrite <- Z.pow_mul_r by (try lia; apply Z.pow_nonneg; lia). rewrite <- Eu. exact A1. }
  assert (B2 : ~ cong r (b ^ p ^ e) 1).
  { unfold b. rewrite <- Z.pow_mul_r by lia. replace (u * p ^ e) with ((q - 1) / p); [exact N2|].
    symmetry. apply Z.div_unique_exact; [lia|]. rewrite Eu, Ep. ring. }
  assert (B3 : cong r (b ^ (r - 1)) 1).
  { pose proof (fermat_unit r b Hr Nb) as F. unfold cong. exists (b ^ (r - 1) / r).
    pose proof (Z.div_mod (b ^ (r - 1)) r ltac:(lia)). lia. }
  set (g := Z.gcd (r - 1) (p ^ (e + 1))).
  assert (G1 : cong r (b ^ g) 1).
  { apply (pow_one_gcd r b Hr Nb (S (Z.to_nat (r - 1 + p ^ (e + 1))))); [lia|apply Z.pow_nonneg; lia|lia|exact B3|exact B1]. }
  assert (E : g = p ^ (e + 1)).
  { apply divides_prime_power; [exact Hp|exact He|apply Z.gcd_nonneg|apply Z.gcd_divide_r|].
    intros [z Ez]. apply B2. rewrite Ez. pose proof (Z.gcd_nonneg (r - 1) (p ^ (e + 1))) as Gn. fold g in Gn.
    assert (0 <= z) by (clear - Ez Gn PE; nia). rewrite (Z.mul_comm z g), Z.pow_mul_r by lia. rewrite G1, Z.pow_1_l by lia. exists 0. lia. }
  rewrite <- E. apply Z.gcd_divide_l.
Qed.

(** a composite number has a prime divisor that is at most its square root *)
Lemma prime_or_small_divisor q : 1 < q -> (forall r, prime r -> (r | q) -> q < r * r) -> prime q.
Proof.
  intros Hq H. destruct (prime_dec q) as [P|N]; [exact P|]. exfalso.
  revert q Hq H N. apply (well_founded_induction (Z.lt_wf 1) (fun q => 1 < q -> (forall r, prime r -> (r | q) -> q < r * r) -> ~ prime q -> False)).
  intros q IH Hq H N. destruct (not_prime_divide q Hq N) as (d & Hd & D). destruct D as [c Ec].
  assert (SMALL : exists x y, 1 < x < q /\ x * x <= q /\ q = y * x).
  { destruct (Z_le_gt_dec (d * d) q); [exists d, c; nia|exists c, d; nia]. }
  destruct SMALL as (x & y & Hx & Hxx & Ey).
  destruct (prime_dec x) as [P|N'].
  - specialize (H x P (ex_intro _ y Ey)). lia.
  - apply (IH x); [lia|lia| |exact N']. intros r Pr Dr.
    assert (q < r * r) by (apply H; [exact Pr|]; apply Z.divide_trans with x; [exact Dr|exists y; exact Ey]). lia.
Qed.

(** A certificate: the prime powers p^e, e >= 1, whose product is F, each with
    its witness. *)
Definition cert := list (Z * Z * Z).
Definition cert_f (l : cert) : Z := prodz (map (fun '(p, e, _) => p ^ e) l).
Definition check_factor (q : Z) (f : Z * Z * Z) : bool :=
  let '(p, e, a) := f in
  (1 <=? e) && (Zpow_mod a (q - 1) q =? 1) && (Z.gcd (Zpow_mod a ((q - 1) / p) q - 1) q =? 1).
Definition check (q : Z) (l : cert) : bool :=
  (1 <? q) && ((q - 1) mod cert_f l =? 0) && (q <? (cert_f l + 1) * (cert_f l + 1)) && forallb (check_factor q) l.

Lemma cert_factor_divides l p e a : In (p, e, a) l -> (p ^ e | cert_f l).
Proof. intros I. apply prodz_divide. exact (in_map (fun '(p, e, _) => p ^ e) l _ I). Qed.

Lemma cert_coprime l p e : prime p -> 0 <= e -> Forall (fun '(p', e', _) => prime p' /\ 0 <= e' /\ p <> p') l ->
  rel_prime (p ^ e) (cert_f l).
Proof.
  intros Hp He F. unfold cert_f. apply rel_prime_prodz. apply Forall_map. apply (Forall_impl _) with (2 := F).
  intros [[p' e'] a'] (P' & E' & Ne). apply rel_prime_Zpower; [exact He|exact E'|].
  apply prime_rel_prime; [exact Hp|]. intros D. apply Ne. apply prime_div_prime; assumption.
Qed.

Lemma cert_divides l z : NoDup (map (fun '(p, _, _) => p) l) ->
  Forall (fun '(p, e, _) => prime p /\ 0 <= e /\ (p ^ e | z)) l -> (cert_f l | z).
Proof.
  induction l as [|[[p e] a] l IH]; intros ND F; [exists z; cbn; lia|].
  inversion_clear ND as [|? ? Ni ND']. inversion_clear F as [|? ? H F']. cbv beta iota in H. destruct H as (Hp & He & D).
  change (cert_f ((p, e, a) :: l)) with (p ^ e * cert_f l).
  destruct (IH ND' F') as [w Ew]. assert (RP : rel_prime (p ^ e) (cert_f l)).
  { apply cert_coprime; [exact Hp|exact He|]. rewrite Forall_forall in F' |- *. intros [[p' e'] a'] I.
    destruct (F' _ I) as (P' & E' & _). split; [exact P'|]. split; [exact E'|]. intros <-. apply Ni.
    exact (in_map (fun '(p, _, _) => p) l _ I). }
  rewrite Ew in D. rewrite Z.mul_comm in D. apply Gauss in D; [|exact RP]. destruct D as [v Ev]. exists v. rewrite Ew, Ev. ring.
Qed.

Lemma check_prime q l : Forall prime (map (fun '(p, _, _) => p) l) -> NoDup (map (fun '(p, _, _) => p) l) ->
  check q l = true -> prime q.
Proof.
  intros P ND C. unfold check in C. apply andb_true_iff in C. destruct C as [C CF]. apply andb_true_iff in C.
  destruct C as [C C3]. apply andb_true_iff in C. destruct C as [C1 C2].
  apply Z.ltb_lt in C1, C3. apply Z.eqb_eq in C2. rewrite forallb_forall in CF. rewrite Forall_map in P.
  rewrite Forall_forall in P.
  assert (FE : Forall (fun '(p, e, _) => prime p /\ 1 <= e) l).
  { apply Forall_forall. intros [[p e] a] I. split; [exact (P _ I)|]. specialize (CF _ I). unfold check_factor in CF.
    apply andb_true_iff in CF. destruct CF as [CF _]. apply andb_true_iff in CF. destruct CF as [CF _]. apply Z.leb_le, CF. }
  assert (F0 : 0 < cert_f l).
  { apply prodz_pos. apply Forall_map. apply (Forall_impl _) with (2 := FE). intros [[p e] a] [Hp He].
    pose proof (prime_ge_2 p Hp). apply Z.pow_pos_nonneg; lia. }
  assert (DF : (cert_f l | q - 1)) by (apply Z.mod_divide; [lia|exact C2]).
  apply prime_or_small_divisor; [exact C1|]. intros r Hr Dr. pose proof (prime_ge_2 r Hr) as R2.
  assert (D : (cert_f l | r - 1)).
  { apply cert_divides; [exact ND|]. rewrite Forall_forall in FE |- *. intros [[p e] a] I. destruct (FE _ I) as [Hp He].
    split; [exact Hp|]. split; [lia|]. specialize (CF _ I). unfold check_factor in CF.
    apply andb_true_iff in CF. destruct CF as [CF G]. apply andb_true_iff in CF. destruct CF as [_ A].
    apply Z.eqb_eq in A, G. rewrite Zpow_mod_correct in A, G by lia.
    replace e with ((e - 1) + 1) by lia. apply (pocklington_step q r p (e - 1) a C1 Hr Dr Hp); [lia| |exact A|exact G].
    replace (e - 1 + 1) with e by lia. apply Z.divide_trans with (cert_f l); [|exact DF]. apply (cert_factor_divides l p e a I). }
  apply Z.divide_pos_le in D; [|lia]. nia.
Qed.
