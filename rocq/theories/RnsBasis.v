(** Switching RNS polynomials between bases. *)
From Coq Require Import Znumtheory.
From Verif Require Import Base FinSum PolySpec Ring Montgomery MontBatch Ntt Poly PolyExt MontgomeryProofs
  MontBatchProofs Fermat Spec PolyView ArithFacts NttFacts NttProofs PolyProofs PolyFacts
  RnsPoly RnsSpec CrtMath RnsSub RnsProofs.
Local Notation zsum := FinSum.zsum.

(** ** Number theory on lists of moduli *)

Lemma zinv_ok q a : prime q -> 2 < q -> ~ (q | a) -> cong q (zinv q a * a) 1.
Proof.
  intros Hp Hq N. unfold zinv. rewrite cong_mod. pose proof (prime_ge_2 q Hp) as G2.
  assert (E : a ^ (q - 2) * a = a ^ (q - 1)).
  { replace (q - 1) with (Z.succ (q - 2)) by lia. rewrite Z.pow_succ_r by lia. ring. }
  rewrite E. clear E.
  assert (F : cong q ((a mod q) ^ q) (a mod q)).
  { apply cong_iff; [lia|]. apply fermat_Z; [exact Hp|]. pose proof (Z.mod_pos_bound a q ltac:(lia)). lia. }
  assert (C : cong q (a ^ (q - 1)) ((a mod q) ^ (q - 1))).
  { apply cong_iff; [lia|]. apply Zpow_facts.Zpower_mod. lia. }
  rewrite C. set (b := a mod q) in *.
  assert (D : (q | b ^ q - b)) by exact F.
  replace (b ^ q - b) with (b * (b ^ (q - 1) - 1)) in D.
  2:{ replace q with (Z.succ (q - 1)) at 2 by lia. rewrite Z.pow_succ_r by lia. ring. }
  apply prime_mult in D; [|exact Hp]. destruct D as [D|D]; [|exact D].
  exfalso. apply N. apply Z.mod_divide; [lia|]. fold b.
  destruct (Z.eq_dec b 0); [assumption|]. apply Z.divide_pos_le in D; unfold b in *; pose proof (Z.mod_pos_bound a q ltac:(lia)); lia.
Qed.

Lemma mul_inverse_unique q a x y : cong q (x * a) 1 -> cong q (y * a) 1 -> cong q x y.
Proof.
  intros Hx Hy. transitivity (x * (y * a)); [rewrite Hy; apply cong_eq; ring|].
  replace (x * (y * a)) with ((x * a) * y) by ring. rewrite Hx. apply cong_eq. ring.
Qed.

Lemma mod1_cong q x : 1 < q -> x mod q = 1 -> cong q x 1.
Proof. intros H E. apply cong_iff; [lia|]. rewrite E. symmetry. apply Z.mod_small. lia. Qed.

Lemma sumz_zsum {A} (F : A -> Z) (l : list A) d : sumz (map F l) = zsum (length l) (fun i => F (nth i l d)).
Proof.
  induction l as [|x t IH]; [reflexivity|]. cbn [length]. rewrite zsum_first. cbn [nth].
  change (sumz (map F (x :: t))) with (F x + sumz (map F t)). rewrite IH. reflexivity.
Qed.

Lemma sumz_ext {A} (F G : A -> Z) l : (forall x, In x l -> F x = G x) -> sumz (map F l) = sumz (map G l).
Proof. intros H. f_equal. apply map_ext_in. exact H. Qed.

Lemma sumz_cong {A} q (F G : A -> Z) l : (forall x, In x l -> cong q (F x) (G x)) -> cong q (sumz (map F l)) (sumz (map G l)).
Proof.
  induction l as [|x t IH]; intros H; [reflexivity|]. cbn [map]. change (cong q (F x + sumz (map F t)) (G x + sumz (map G t))).
  rewrite (H x (or_introl eq_refl)), IH; [reflexivity|]. intros y I. apply H. right. exact I.
Qed.

Lemma sumz_mul_l {A} c (F : A -> Z) l : sumz (map (fun x => c * F x) l) = c * sumz (map F l).
Proof. induction l as [|x t IH]; cbn [map]; [unfold sumz; cbn; ring|]. change (c * F x + sumz (map (fun x => c * F x) t) = c * (F x + sumz (map F t))). rewrite IH. ring. Qed.

Section Mods.
Variables (k : Z) (L : nat) (ms : list pmod).
Hypothesis OK : moduli_ok k L ms.
Local Notation Q := (big_q ms).

Lemma mods_pos : Forall (fun q => 0 < q) (moduli ms).
Proof.
  apply Forall_forall. intros q Hq. unfold moduli in Hq. apply in_map_iff in Hq. destruct Hq as (m & <- & I).
  pose proof (ok_q k L m (moduli_in _ _ _ _ OK I)). lia.
Qed.
Lemma mods_prime : Forall prime (moduli ms).
Proof.
  apply Forall_forall. intros q Hq. unfold moduli in Hq. apply in_map_iff in Hq. destruct Hq as (m & <- & I).
  apply (ok_prime k L m (moduli_in _ _ _ _ OK I)).
Qed.
Lemma big_q_pos : 0 < Q.
Proof. apply prodz_pos, mods_pos. Qed.
Lemma mod_divides m : In m ms -> (modulus m | Q).
Proof. intros I. apply prodz_divide. unfold moduli. apply in_map, I. Qed.
Lemma hat_of_mul m : In m ms -> modulus m * hat_of ms m = Q.
Proof.
  intros I. unfold hat_of. destruct (mod_divides m I) as [y E]. rewrite E.
  pose proof (ok_q k L m (moduli_in _ _ _ _ OK I)). rewrite Z.div_mul by lia. ring.
Qed.
Lemma hat_of_pos m : In m ms -> 0 < hat_of ms m.
Proof.
  intros I. pose proof (hat_of_mul m I). pose proof big_q_pos.
  pose proof (ok_q k L m (moduli_in _ _ _ _ OK I)). nia.
Qed.
Lemma nth_modulus d i : (i < length ms)%nat -> nth i (moduli ms) 0 = modulus (nth i ms d).
Proof. intros Hi. unfold moduli. apply nth_map_any. exact Hi. Qed.
Lemma hat_nth d i : (i < length ms)%nat -> hat (moduli ms) i = hat_of ms (nth i ms d).
Proof.
  intros Hi. assert (Hi' : (i < length (moduli ms))%nat) by (unfold moduli; rewrite map_length; exact Hi).
  pose proof (hat_mul (moduli ms) i Hi') as E. rewrite (nth_modulus d i Hi) in E.
  assert (I : In (nth i ms d) ms) by (apply nth_In, Hi).
  pose proof (hat_of_mul _ I) as E'. pose proof (ok_q k L _ (moduli_in _ _ _ _ OK I)). unfold big_q in E'. nia.
Qed.

Hypothesis DI : distinct ms.

Lemma mods_pairwise : pairwise (moduli ms).
Proof. apply pairwise_primes; [apply mods_prime|exact DI]. Qed.

Lemma hat_of_coprime m : In m ms -> ~ (modulus m | hat_of ms m).
Proof.
  intros I. destruct (In_nth _ _ m I) as (i & Hi & E).
  pose proof (pairwise_hat (moduli ms) mods_pairwise i) as R.
  unfold moduli in R at 1. rewrite map_length in R. specialize (R Hi).
  rewrite (hat_nth m i Hi), (nth_modulus m i Hi), E in R.
  intros D. pose proof (ok_prime k L m (moduli_in _ _ _ _ OK I)) as P.
  apply rel_prime_sym in R. destruct R as [_ _ G].
  specialize (G (modulus m) (Z.divide_refl _) D). apply Z.divide_1_r in G. pose proof (prime_ge_2 _ P). lia.
Qed.

Lemma hat_inv_ok m : In m ms -> cong (modulus m) (zinv (modulus m) (hat_of ms m) * hat_of ms m) 1.
Proof.
  intros I. pose proof (moduli_in _ _ _ _ OK I) as O. apply zinv_ok.
  - apply (ok_prime k L m O).
  - pose proof (ok_prime k L m O) as P. pose proof (prime_ge_2 _ P). pose proof (g_odd (pm_p m) (ok_good k L m O)) as Od.
    fold (modulus m) in Od. destruct (Z.eq_dec (modulus m) 2) as [E|]; [rewrite E in Od; discriminate|lia].
  - apply hat_of_coprime, I.
Qed.

Lemma crt_list (x : pmod -> Z) a :
  (forall m, In m ms -> cong (modulus m) (x m * hat_of ms m) a) ->
  cong Q (sumz (map (fun m => x m * hat_of ms m) ms)) a.
Proof.
  intros H. destruct ms as [|d t] eqn:Em; [exists (0 - a); unfold sumz, big_q, prodz; cbn; ring|]. rewrite <- Em in *.
  rewrite (sumz_zsum _ ms d).
  assert (LE : length (moduli ms) = length ms) by (unfold moduli; apply map_length).
  rewrite <- LE. rewrite (zsum_ext _ _ (fun i => x (nth i ms d) * hat (moduli ms) i)).
  2:{ intros i Hi. rewrite LE in Hi. rewrite (hat_nth d i Hi). reflexivity. }
  apply crt_sum_value; [apply mods_pairwise|]. intros i Hi. rewrite LE in Hi.
  rewrite (hat_nth d i Hi), (nth_modulus d i Hi). apply H, nth_In, Hi.
Qed.

Lemma cong_all x y : (forall m, In m ms -> cong (modulus m) x y) -> cong Q x y.
Proof.
  intros H. apply pairwise_cong; [apply mods_pairwise|]. intros i Hi. unfold moduli in Hi. rewrite map_length in Hi.
  destruct ms as [|d t] eqn:Em; [cbn in Hi; lia|]. rewrite <- Em in *. rewrite (nth_modulus d i Hi). apply H, nth_In, Hi.
Qed.

Lemma crt_value_cong x : cong Q (crt_value ms x) x.
Proof.
  apply crt_list. intros m I. unfold crt_digit. rewrite cong_mod.
  replace (zinv (modulus m) (hat_of ms m) * x * hat_of ms m) with (zinv (modulus m) (hat_of ms m) * hat_of ms m * x) by ring.
  rewrite (hat_inv_ok m I). apply cong_eq. ring.
Qed.
End Mods.

Lemma sum_range k L ms (x : pmod -> Z) : moduli_ok k L ms -> ms <> [] ->
  (forall m, In m ms -> 0 <= x m < modulus m) ->
  0 <= sumz (map (fun m => x m * hat_of ms m) ms) < Z.of_nat (length ms) * big_q ms.
Proof.
  intros OK NE H. destruct ms as [|d t] eqn:Em; [contradiction|]. rewrite <- Em in *.
  rewrite (sumz_zsum _ ms d).
  assert (LE : length (moduli ms) = length ms) by (unfold moduli; apply map_length).
  rewrite <- LE. rewrite (zsum_ext _ _ (fun i => x (nth i ms d) * hat (moduli ms) i)).
  2:{ intros i Hi. rewrite LE in Hi. rewrite (hat_nth k L ms OK d i Hi). reflexivity. }
  apply crt_sum_range; [apply (mods_pos k L ms OK)|rewrite Em; discriminate|]. intros i Hi. rewrite LE in Hi.
  rewrite (nth_modulus ms d i Hi). apply H, nth_In, Hi.
Qed.

Lemma sum_abs k L ms (x : pmod -> Z) : moduli_ok k L ms ->
  (forall m, In m ms -> 2 * Z.abs (x m) <= modulus m) ->
  2 * Z.abs (sumz (map (fun m => x m * hat_of ms m) ms)) <= Z.of_nat (length ms) * big_q ms.
Proof.
  intros OK H. destruct ms as [|d t] eqn:Em; [cbn; lia|]. rewrite <- Em in *.
  rewrite (sumz_zsum _ ms d).
  assert (LE : length (moduli ms) = length ms) by (unfold moduli; apply map_length).
  rewrite <- LE. rewrite (zsum_ext _ _ (fun i => x (nth i ms d) * hat (moduli ms) i)).
  2:{ intros i Hi. rewrite LE in Hi. rewrite (hat_nth k L ms OK d i Hi). reflexivity. }
  apply crt_sum_abs; [apply (mods_pos k L ms OK)|]. intros i Hi. rewrite LE in Hi.
  rewrite (nth_modulus ms d i Hi). apply H, nth_In, Hi.
Qed.

(** ** The loops *)

Section Loops.
Variables (k : Z) (L : nat) (ps : list pmod).
Hypothesis OKp : moduli_ok k L ps.
Local Notation n := (2 ^ L)%nat.

Definition mults (hs : list (result Z)) (ps' : list pmod) (c : pmod -> Z) : Prop :=
  Forall2 (fun pj h => exists w, h = Ok w /\ residue pj w (c pj)) ps' (firstn (length ps') hs).

Lemma acc_row_ok conv row (x : nat -> Z) (c : pmod -> Z) (F : pmod -> nat -> Z) ps' :
  (forall pj, In pj ps' -> mod_ok k L pj /\ sub_is pj L false (conv (pm_p pj) row) x) ->
  forall hs outs, mults hs ps' c -> Forall2 (fun pj o => sub_is pj L false o (F pj)) ps' outs ->
  exists outs', acc_row conv row ps' hs outs = Ok outs' /\
    Forall2 (fun pj o => sub_is pj L false o (fun i => F pj i + c pj * x i)) ps' outs'.
Proof.
  induction ps' as [|pj ps' IH]; intros Hc hs outs Hh Ho.
  - exists []. split; [reflexivity|constructor].
  - inversion Ho as [|? o ? outs' Ho1 Ho2]; subst. unfold mults in Hh. cbn [length] in Hh.
    destruct hs as [|h hs]; [inversion Hh|]. cbn [firstn] in Hh. inversion Hh as [|? ? ? ? (w & -> & Hw) Hh2]; subst.
    destruct (Hc pj (or_introl eq_refl)) as [O Hx]. cbn [acc_row bind].
    destruct (sub_scale k L pj O false _ x w (c pj) Hx Hw) as (r & Er & Hr). rewrite Er. cbn [bind].
    destruct (sub_add k L pj O false o r _ _ Ho1 Hr) as (r2 & Er2 & Hr2). rewrite Er2. cbn [bind].
    destruct (IH ltac:(intros; apply Hc; right; assumption) hs outs' Hh2 Ho2) as (os & Eo & Hos). rewrite Eo. cbn [bind].
    exists (r2 :: os). split; [reflexivity|]. constructor; assumption.
Qed.

Lemma acc_rows_ok conv (cv : pmod -> Z -> Z) (X : pmod -> nat -> Z) (H : pmod -> pmod -> Z) qs :
  (forall q pj row, In q qs -> In pj ps -> sub_is q L false row (X q) ->
     sub_is pj L false (conv (pm_p q) (pm_p pj) row) (fun i => cv q (X q i))) ->
  forall rows hss outs F, Forall2 (fun q r => sub_is q L false r (X q)) qs rows ->
  Forall2 (fun q hs => mults hs ps (H q)) qs (firstn (length qs) hss) ->
  Forall2 (fun pj o => sub_is pj L false o (F pj)) ps outs ->
  exists outs', acc_rows conv qs rows ps hss outs = Ok outs' /\
    Forall2 (fun pj o => sub_is pj L false o (fun i => F pj i + sumz (map (fun q => H q pj * cv q (X q i)) qs))) ps outs'.
Proof.
  induction qs as [|q qs IH]; intros Hcv rows hss outs F Hr Hh Ho.
  - exists outs. split; [reflexivity|]. eapply Forall2_imp; [exact Ho|]. intros pj o I Hpj. cbv beta in *.
    apply (sub_ext k L pj (moduli_in _ _ _ _ OKp I) false o _ _ Hpj). intros i Hi. unfold sumz. cbn. apply cong_eq. ring.
  - inversion Hr as [|? row ? rows' Hr1 Hr2]; subst. cbn [length] in Hh.
    destruct hss as [|hs hss]; [inversion Hh|]. cbn [firstn] in Hh. inversion Hh as [|? ? ? ? Hh1 Hh2]; subst.
    cbn [acc_rows].
    destruct (acc_row_ok (conv (pm_p q)) row (fun i => cv q (X q i)) (H q) F ps) with (hs := hs) (outs := outs)
      as (o1 & E1 & H1); try assumption.
    { intros pj I. split; [apply (moduli_in _ _ _ _ OKp I)|]. apply Hcv; [left; reflexivity|exact I|exact Hr1]. }
    rewrite E1. cbn [bind].
    destruct (IH ltac:(intros; apply Hcv; [right; assumption| |]; assumption) rows' hss o1 _ Hr2 Hh2 H1) as (o2 & E2 & H2).
    exists o2. split; [exact E2|]. eapply Forall2_imp; [exact H2|]. intros pj o I Hpj. cbv beta in *.
    apply (sub_ext k L pj (moduli_in _ _ _ _ OKp I) false o _ _ Hpj). intros i Hi. cbn [map].
    match goal with |- cong _ _ (_ + sumz (?a :: ?l)) => change (sumz (a :: l)) with (a + sumz l) end.
    apply cong_eq. ring.
Qed.

Lemma zero_outs_ok : Forall2 (fun pj o => sub_is pj L false o (fun _ => 0)) ps (zero_outs n ps).
Proof. apply map_forall. intros m I. apply (sub_zero k L m (moduli_in _ _ _ _ OKp I)). Qed.
End Loops.

Section Floats.
Variables (k : Z) (L : nat) (D : dops).
Local Notation n := (2 ^ L)%nat.
Definition step (m : pmod) (acc : d_t D) (x : Z) : d_t D := d_add D acc (d_div D (d_of_int D x) (d_of_int D (modulus m))).

Lemma us_row_ok m row : forall us, length us = length row ->
  us_row D (pm_p m) (d_of_int D (p_m (pm_p m))) row us = Ok (map2 (fun u x => step m u (export_int (pm_p m) x)) us row).
Proof.
  induction row as [|x row IH]; intros us Lu; destruct us as [|u us]; cbn [length] in *; try lia; [reflexivity|].
  cbn [us_row map2]. rewrite IH by lia. reflexivity.
Qed.

Lemma us_rows_ok (X : pmod -> nat -> Z) qs : forall rows us (U : nat -> d_t D),
  Forall2 (fun q r => sub_is q L false r (X q)) qs rows -> length us = n ->
  (forall i, (i < n)%nat -> nth_error us i = Some (U i)) ->
  exists us', us_rows D qs rows us = Ok us' /\ length us' = n /\
    forall i, (i < n)%nat -> nth_error us' i = Some (fold_left (fun acc m => step m acc (X m i mod modulus m)) qs (U i)).
Proof.
  induction qs as [|q qs IH]; intros rows us U Hr Lu HU.
  - exists us. split; [reflexivity|]. split; [exact Lu|exact HU].
  - inversion Hr as [|? row ? rows' Hr1 Hr2]; subst. pose proof (sub_len _ _ _ _ _ Hr1) as Lr.
    cbn [us_rows]. rewrite us_row_ok by lia. cbn [bind].
    destruct (IH rows' (map2 (fun u x => step q u (export_int (pm_p q) x)) us row)
      (fun i => step q (U i) (X q i mod modulus q)) Hr2) as (us' & E & Lu' & HU').
    + rewrite map2_length; lia.
    + intros i Hi. destruct Hr1 as [_ Vr]. specialize (Vr i Hi). unfold rcoeff in Vr. rewrite <- Vr.
      assert (G : forall us row j, (j < length us)%nat -> length us = length row ->
        nth_error (map2 (fun u x => step q u (export_int (pm_p q) x)) us row) j =
        option_map (fun u => step q u (export_int (pm_p q) (nth j row 0))) (nth_error us j)).
      { clear. induction us as [|u us IH]; intros row j Hj Le; [cbn in Hj; lia|]. destruct row as [|x row]; [discriminate|].
        destruct j; [reflexivity|]. cbn in Hj, Le. cbn [map2 nth_error nth]. apply IH; lia. }
      rewrite G by lia. rewrite (HU i Hi). reflexivity.
    + exists us'. split; [exact E|]. split; [exact Lu'|]. intros i Hi. rewrite (HU' i Hi). reflexivity.
Qed.
End Floats.

(** ** Words for inverses *)

Lemma inverses_residue k L m w x : mod_ok k L m -> ~ (modulus m | x) -> stored (pm_p m) w ->
  (export_int (pm_p m) w * x) mod modulus m = 1 -> residue m w (zinv (modulus m) x).
Proof.
  intros O N S E. split; [exact S|]. pose proof (ok_q k L m O) as Q1.
  pose proof (ok_good k L m O) as G. pose proof (val_range (pm_p m) G w) as R.
  rewrite <- stored_val in R by assumption.
  apply cong_reduced; [exact R|]. apply (mul_inverse_unique _ x); [apply mod1_cong; assumption|].
  apply zinv_ok; [apply (ok_prime k L m O)| |exact N].
  pose proof (ok_prime k L m O) as P. pose proof (prime_ge_2 _ P).
  pose proof (g_odd (pm_p m) G) as Od. fold (modulus m) in Od.
  destruct (Z.eq_dec (modulus m) 2) as [E2|]; [rewrite E2 in Od; discriminate|lia].
Qed.

Lemma hat_inverses_residues k L ms words : moduli_ok k L ms -> distinct ms -> hat_inverses ms words ->
  Forall2 (fun m w => residue m w (zinv (modulus m) (hat_of ms m))) ms words.
Proof.
  intros OK DI H. eapply Forall2_imp; [exact H|]. intros m w I [S E].
  apply (inverses_residue k L); try assumption; [apply (moduli_in _ _ _ _ OK I)|apply (hat_of_coprime k L ms OK DI m I)].
Qed.

Lemma hat_residues_mults ms ps rows : hat_residues ms ps rows ->
  Forall2 (fun q hs => mults hs ps (fun _ => hat_of ms q)) ms (firstn (length ms) (map (map (@Ok Z)) rows)).
Proof.
  intros H. rewrite firstn_map. unfold hat_residues in H.
  assert (G : forall (P : pmod -> rnsint -> Prop) (R : pmod -> list (result Z) -> Prop) l1 l2,
    Forall2 P l1 l2 -> (forall m z, P m z -> R m (map (@Ok Z) z)) -> Forall2 R l1 (map (map (@Ok Z)) l2)).
  { intros P R l1 l2 F K. induction F; cbn [map]; constructor; auto. }
  eapply G; [exact H|]. intros m z Hz. unfold mults. rewrite firstn_map. unfold residues in Hz.
  clear -Hz. induction Hz; cbn [map]; constructor; auto. exists y. auto.
Qed.

(** ** Approximate switching *)

Lemma ne_match {A B} (l : list A) (x y : B) : l <> [] -> match l with [] => x | _ :: _ => y end = y.
Proof. destruct l; [contradiction|reflexivity]. Qed.

Lemma combine_firstn {A B} (a : list A) : forall (b : list B), combine a b = combine a (firstn (length a) b).
Proof. induction a as [|x a IH]; intros [|y b]; cbn; try reflexivity. f_equal. apply IH. Qed.

Section Approx.
Variables (k : Z) (L : nat) (qs ps : list pmod).
Hypothesis OKq : moduli_ok k L qs.
Hypothesis OKp : moduli_ok k L ps.
Hypothesis DI : distinct qs.
Local Notation n := (2 ^ L)%nat.
Local Notation Q := (big_q qs).

(** the value the approximate switch yields *)
Definition approx_value (balanced : bool) (x : Z) : Z :=
  sumz (map (fun m => (if balanced then centered (modulus m) (crt_digit qs x m) else crt_digit qs x m) * hat_of qs m) qs).

Lemma approx_cong balanced x : cong Q (approx_value balanced x) x.
Proof.
  apply (crt_list k L qs OKq DI). intros m I.
  assert (C : cong (modulus m) (if balanced then centered (modulus m) (crt_digit qs x m) else crt_digit qs x m)
    (zinv (modulus m) (hat_of qs m) * x)).
  { destruct balanced; [rewrite centered_cong|]; unfold crt_digit; apply cong_mod. }
  rewrite C. replace (zinv (modulus m) (hat_of qs m) * x * hat_of qs m) with (zinv (modulus m) (hat_of qs m) * hat_of qs m * x) by ring.
  rewrite (hat_inv_ok k L qs OKq DI m I). apply cong_eq. ring.
Qed.

Lemma approx_range x : qs <> [] -> 0 <= approx_value false x < Z.of_nat (length qs) * Q.
Proof.
  intros NE. apply (sum_range k L qs _ OKq NE). intros m I. apply Z.mod_pos_bound.
  pose proof (ok_q k L m (moduli_in _ _ _ _ OKq I)). lia.
Qed.
Lemma approx_abs x : 2 * Z.abs (approx_value true x) <= Z.of_nat (length qs) * Q.
Proof.
  apply (sum_abs k L qs _ OKq). intros m I. pose proof (ok_q k L m (moduli_in _ _ _ _ OKq I)).
  pose proof (centered_fits (modulus m) (crt_digit qs x m) ltac:(lia)) as F. unfold fits in F. lia.
Qed.

Variables (hat_inv : list Z) (hat_mod : list rnsint).
Hypothesis HI : hat_inverses qs hat_inv.
Hypothesis HR : hat_residues qs ps hat_mod.
Hypothesis NEp : ps <> [].

Lemma approx_ok ntt a f balanced : rns_is qs L ntt a f -> length hat_mod = length qs ->
  is_rns ps L false (rns_approx_switch a qs ps hat_inv hat_mod balanced) (fun i => approx_value balanced (f i)).
Proof.
  intros Ha Lh. pose proof (rns_len _ _ _ _ _ Ha) as Ea. pose proof (Forall2_len _ _ _ HI) as Li.
  unfold rns_approx_switch. rewrite same_len_eq by congruence.
  rewrite (ne_match ps _ _ NEp).
  rewrite !same_len_eq by congruence.
  destruct Ha as (A1 & A2 & Ha).
  pose proof (hat_inverses_residues k L qs hat_inv OKq DI HI) as HW.
  set (X := fun m i => zinv (modulus m) (hat_of qs m) * f i).
  destruct (each_ok _ (fun m r => sub_is m L false r (X m))
    (fun m vz => do! r <- batch_mul_scalar (pm_p m) (fst vz) (snd vz);
       if rp_ntt a then inverse_ntt (pm_p m) (pm_np m) r else Ok r) _ _ (Forall2_combine _ _ _ _ _ Ha HW)) as (rows & E & HV).
  { intros m [v w] I [Hv Hw]. cbn [fst snd] in *. pose proof (moduli_in _ _ _ _ OKq I) as O.
    destruct (sub_scale k L m O ntt v f w _ Hv Hw) as (r & Er & Hr). rewrite Er. cbn [bind]. rewrite A2.
    destruct ntt; [apply (sub_inverse k L m O r _ Hr)|]. exists r. split; [reflexivity|exact Hr]. }
  rewrite E. cbn [bind]. unfold rp_ncoeffs. rewrite A1.
  destruct (acc_rows_ok k L ps OKp (if balanced then convert_balanced else convert_modulus)
    (fun m x => if balanced then centered (modulus m) x else x mod modulus m) X (fun q _ => hat_of qs q) qs)
    with (rows := rows) (hss := map (map (@Ok Z)) hat_mod) (outs := zero_outs n ps) (F := fun (_ : pmod) (_ : nat) => 0)
    as (outs & Eo & Ho).
  - intros q pj row Iq Ip Hrow. pose proof (moduli_in _ _ _ _ OKq Iq) as Oq. pose proof (moduli_in _ _ _ _ OKp Ip) as Op.
    destruct balanced; [apply (sub_convert_balanced k L q pj row _ Oq Op Hrow)|apply (sub_convert_modulus k L q pj row _ Oq Op Hrow)].
  - exact HV.
  - apply hat_residues_mults, HR.
  - apply (zero_outs_ok k L ps OKp).
  - rewrite Eo. cbn [bind]. eexists. split; [reflexivity|]. split; [reflexivity|]. split; [reflexivity|]. cbn [rp_vs].
    eapply Forall2_imp; [exact Ho|]. intros pj o I Hpj. cbv beta in *.
    apply (sub_ext k L pj (moduli_in _ _ _ _ OKp I) false o _ _ Hpj). intros i Hi. cbv beta. apply cong_eq.
    rewrite Z.add_0_l. unfold approx_value. apply sumz_ext. intros m Im. unfold X, crt_digit.
    destruct balanced; [|ring]. rewrite Z.mul_comm. f_equal. unfold centered. rewrite Zmod_mod. reflexivity.
Qed.
End Approx.

(** ** Exact switching *)

Lemma seqr_map_nth {A B} (g : A -> result B) (l : list A) (h : nat -> B) :
  (forall i x, nth_error l i = Some x -> g x = Ok (h i)) ->
  seqr (map g l) = Ok (map h (seq 0 (length l))).
Proof.
  revert h. induction l as [|x t IH]; intros h H; [reflexivity|].
  cbn [map seqr length seq]. rewrite (H 0%nat x eq_refl). cbn [bind].
  rewrite (IH (fun i => h (S i))) by (intros i y E; apply (H (S i) y E)). cbn [bind].
  rewrite <- seq_shift, map_map. reflexivity.
Qed.

Section Exact.
Variables (k : Z) (L : nat) (qs ps : list pmod) (D : dops).
Hypothesis OKq : moduli_ok k L qs.
Hypothesis OKp : moduli_ok k L ps.
Hypothesis DI : distinct qs.
Hypothesis NEp : ps <> [].
Local Notation n := (2 ^ L)%nat.
Local Notation Q := (big_q qs).
Variables (hat_inv : list Z).
Hypothesis HI : hat_inverses qs (firstn (length qs) hat_inv).

Lemma len_firstn {A} (l : list A) c : length (firstn c l) = c -> (c <= length l)%nat.
Proof. rewrite firstn_length. lia. Qed.

Lemma us_value f rows us0 u :
  Forall2 (fun m r => sub_is m L false r (fun i => zinv (modulus m) (hat_of qs m) * f i)) qs rows ->
  us0 = repeat (d_zero D) n ->
  (forall i, (i < n)%nat -> rounds_to D k qs (f i) (u i)) ->
  exists us, us_rows D qs rows us0 = Ok us /\ length us = n /\
    forall i x, nth_error us i = Some x -> (i < n)%nat /\ d_round D x = Ok (u i).
Proof.
  intros Hr -> Hu.
  destruct (us_rows_ok L D (fun m i => zinv (modulus m) (hat_of qs m) * f i) qs rows (repeat (d_zero D) n)
    (fun _ => d_zero D) Hr) as (us & E & Lu & HU).
  - apply repeat_length.
  - intros i Hi. assert (LR : (i < length (repeat (d_zero D) n))%nat) by (rewrite repeat_length; exact Hi).
    apply nth_error_Some in LR. destruct (nth_error (repeat (d_zero D) n) i) eqn:E; [|contradiction].
    apply nth_error_In, repeat_spec in E. congruence.
  - exists us. split; [exact E|]. split; [exact Lu|]. intros i x Ex.
    assert (Hi : (i < n)%nat) by (rewrite <- Lu; apply nth_error_Some; congruence).
    split; [exact Hi|]. rewrite (HU i Hi) in Ex. injection Ex as <-. apply (Hu i Hi).
Qed.

Lemma switch_ok hat_mod q_mod a f u : hat_residues qs ps hat_mod -> (length qs <= length hat_mod)%nat ->
  residues ps q_mod Q -> rns_is qs L false a f ->
  (forall i, (i < n)%nat -> rounds_to D k qs (f i) (u i)) ->
  is_rns ps L false (rns_switch_basis D a qs ps hat_inv hat_mod q_mod) (fun i => crt_value qs (f i) - u i * Q).
Proof.
  intros HR Lh HQ Ha Hu. pose proof (rns_len _ _ _ _ _ Ha) as Ea. pose proof (Forall2_len _ _ _ HQ) as Lq.
  pose proof (Forall2_len _ _ _ HI) as Li. symmetry in Li. apply len_firstn in Li.
  unfold rns_switch_basis. destruct Ha as (A1 & A2 & Ha). rewrite A2. rewrite same_len_eq by congruence.
  rewrite (ne_match ps _ _ NEp).
  destruct (Nat.ltb_spec (length hat_inv) (length (rp_vs a))); [lia|].
  destruct (Nat.ltb_spec (length hat_mod) (length (rp_vs a))); [lia|].
  rewrite same_len_eq by congruence.
  pose proof (hat_inverses_residues k L qs _ OKq DI HI) as HW.
  set (X := fun m i => zinv (modulus m) (hat_of qs m) * f i).
  destruct (each_ok _ (fun m r => sub_is m L false r (X m))
    (fun m vz => batch_mul_scalar (pm_p m) (fst vz) (snd vz)) _ _ (Forall2_combine _ _ _ _ _ Ha HW)) as (rows & E & HV).
  { intros m [v w] I [Hv Hw]. cbn [fst snd] in *.
    apply (sub_scale k L m (moduli_in _ _ _ _ OKq I) false v f w _ Hv Hw). }
  rewrite Ea, <- combine_firstn in E. rewrite E. cbn [bind]. unfold rp_ncoeffs. rewrite A1.
  destruct (us_value f rows _ u HV eq_refl Hu) as (us & Eu & Lu & HU). rewrite Eu. cbn [bind].
  destruct (acc_rows_ok k L ps OKp convert_modulus (fun m x => x mod modulus m) X (fun q _ => hat_of qs q) qs)
    with (rows := rows) (hss := map (map (@Ok Z)) hat_mod) (outs := zero_outs n ps) (F := fun (_ : pmod) (_ : nat) => 0)
    as (outs & Eo & Ho).
  - intros q pj row Iq Ip Hrow.
    apply (sub_convert_modulus k L q pj row _ (moduli_in _ _ _ _ OKq Iq) (moduli_in _ _ _ _ OKp Ip) Hrow).
  - exact HV.
  - apply hat_residues_mults, HR.
  - apply (zero_outs_ok k L ps OKp).
  - rewrite Eo. cbn [bind].
    destruct (each_ok _ (fun m r => sub_is m L false r (fun i => crt_value qs (f i) - u i * Q))
      (fun pj oq => do! cs <- seqr (map (fun x => do! u <- d_round D x; Ok (mmul (pm_p pj) (import_int (pm_p pj) u) (snd oq))) us);
         batch_sub (pm_p pj) (fst oq) cs) _ _ (Forall2_combine _ _ _ _ _ Ho HQ)) as (vs & Ev & Hvs).
    + intros m [o w] I [Hm Hw]. cbn [fst snd] in *. pose proof (moduli_in _ _ _ _ OKp I) as O.
      rewrite (seqr_map_nth _ us (fun i => mmul (pm_p m) (import_int (pm_p m) (u i)) w)).
      2:{ intros i x Ex. rewrite (proj2 (HU i x Ex)). reflexivity. }
      cbn [bind].
      assert (Hcs : sub_is m L false (map (fun i => mmul (pm_p m) (import_int (pm_p m) (u i)) w) (seq 0 (length us))) (fun i => u i * Q)).
      { apply (rcoeff_form L m). split; [rewrite map_length, seq_length; exact Lu|]. intros i Hi.
        rewrite (nth_map_any _ _ 0%nat) by (rewrite seq_length; lia). rewrite seq_nth by lia. cbn [plus].
        apply (residue_mul k L m O); [|exact Hw]. apply (residue_import k L m O). apply (Hu i Hi). }
      destruct (sub_sub k L m O false o _ _ _ Hm Hcs) as (r & Er & Hr). exists r. split; [exact Er|].
      apply (sub_ext k L m O false r _ _ Hr). intros i Hi. cbv beta. apply cong_eq. f_equal.
      rewrite Z.add_0_l. unfold crt_value. apply sumz_ext. intros q Iq. unfold X, crt_digit. ring.
    + rewrite Ev. cbn [bind]. eexists. split; [reflexivity|]. split; [reflexivity|]. split; [reflexivity|exact Hvs].
Qed.

Lemma nearest_centered x u : Z.odd Q = true -> nearest qs x u -> crt_value qs x - u * Q = centered Q x.
Proof.
  intros Od Hn. symmetry. pose proof (big_q_pos k L qs OKq) as PQ. apply centered_eq; [exact PQ| |].
  - unfold nearest in Hn. unfold fits. assert (2 * (crt_value qs x - u * Q) <> - Q); [|lia].
    intros E. assert (Z.even Q = true); [|rewrite <- Z.negb_odd, Od in *; discriminate].
    rewrite <- Z.even_opp, <- E, Z.even_mul. reflexivity.
  - transitivity (crt_value qs x); [symmetry; apply (crt_value_cong k L qs OKq DI)|]. exists u. ring.
Qed.

Lemma big_q_odd : Z.odd Q = true.
Proof.
  unfold big_q, moduli. assert (H : forall m, In m qs -> Z.odd (modulus m) = true).
  { intros m I. pose proof (g_odd (pm_p m) (ok_good k L m (moduli_in _ _ _ _ OKq I))) as G. fold (modulus m) in G.
    rewrite Zmod_odd in G. destruct (Z.odd (modulus m)); [reflexivity|discriminate]. }
  clear -H. induction qs as [|m t IH]; [reflexivity|]. cbn [map]. rewrite prodz_cons, Z.odd_mul, H by (left; reflexivity).
  apply IH. intros m' I. apply H. right. exact I.
Qed.

(** scaling by P/Q while switching *)
Definition q_inverses (invs : list rnsint) : Prop :=
  Forall2 (fun pj z => Forall2 (fun m w => stored (pm_p pj) w /\
     (export_int (pm_p pj) w * modulus m) mod modulus pj = 1) qs (firstn (length qs) z)) ps invs.

Lemma firstn_get {A B} (P : A -> B -> Prop) (d : A) l : forall z i, Forall2 P l (firstn (length l) z) -> (i < length l)%nat ->
  exists w, get z i = Ok w /\ P (nth i l d) w.
Proof.
  induction l as [|x l IH]; intros z i H Hi; [cbn in Hi; lia|]. destruct z as [|y z]; [inversion H|].
  cbn [length firstn] in H. inversion H as [|? ? ? ? H1 H2]; subst. destruct i as [|i].
  - exists y. split; [reflexivity|exact H1].
  - cbn [length] in Hi. destruct (IH z i H2 ltac:(lia)) as (w & E & Hw). exists w. split; [exact E|exact Hw].
Qed.

Lemma scale_switch_ok invs p_mod a f u y : q_inverses invs ->
  (forall q pj, In q qs -> In pj ps -> modulus q <> modulus pj) ->
  Forall2 (fun m w => residue m w (big_q ps)) qs (firstn (length qs) p_mod) ->
  rns_is qs L false a f ->
  (forall i, (i < n)%nat -> rounds_to D k qs (big_q ps * f i) (u i)) ->
  (forall i, (i < n)%nat -> Q * y i = big_q ps * f i - (crt_value qs (big_q ps * f i) - u i * Q)) ->
  is_rns ps L false (rns_scale_and_switch D a qs ps hat_inv invs p_mod) y.
Proof.
  intros HV HN HP Ha Hu Hy. pose proof (rns_len _ _ _ _ _ Ha) as Ea. pose proof (Forall2_len _ _ _ HV) as Lv.
  pose proof (Forall2_len _ _ _ HI) as Li. symmetry in Li. apply len_firstn in Li.
  pose proof (Forall2_len _ _ _ HP) as Lp. symmetry in Lp. apply len_firstn in Lp.
  unfold rns_scale_and_switch. destruct Ha as (A1 & A2 & Ha). rewrite A2. rewrite same_len_eq by congruence.
  rewrite (ne_match ps _ _ NEp).
  destruct (Nat.ltb_spec (length hat_inv) (length (rp_vs a))); [lia|].
  first [rewrite (@same_len_eq rnsint pmod invs ps (eq_sym Lv)) | rewrite (@same_len_eq (list Z) pmod invs ps (eq_sym Lv))].
  destruct (Nat.ltb_spec (length p_mod) (length (rp_vs a))); [lia|].
  pose proof (hat_inverses_residues k L qs _ OKq DI HI) as HW.
  set (P := big_q ps) in *.
  set (X := fun m i => zinv (modulus m) (hat_of qs m) * (P * f i)).
  destruct (each_ok _ (fun m r => sub_is m L false r (X m))
    (fun m vz => do! v <- batch_mul_scalar (pm_p m) (fst vz) (fst (snd vz)); batch_mul_scalar (pm_p m) v (snd (snd vz))) _ _
    (Forall2_combine _ _ _ _ _ Ha (Forall2_combine _ _ _ _ _ HP HW))) as (rows & E & HVr).
  { intros m [v [w1 w2]] I [Hv [Hw1 Hw2]]. cbn [fst snd] in *. pose proof (moduli_in _ _ _ _ OKq I) as O.
    destruct (sub_scale k L m O false v f w1 _ Hv Hw1) as (r & Er & Hr). rewrite Er. cbn [bind].
    apply (sub_scale k L m O false r _ w2 _ Hr Hw2). }
  assert (Ec : combine (rp_vs a) (combine (firstn (length qs) p_mod) (firstn (length qs) hat_inv)) =
               combine (rp_vs a) (combine p_mod hat_inv)).
  { rewrite (combine_firstn (rp_vs a) (combine p_mod hat_inv)). f_equal. rewrite <- Ea.
    generalize (length qs) p_mod hat_inv. clear. induction n; intros [|x a] [|y b]; cbn; try reflexivity.
    f_equal. apply IHn. }
  rewrite Ec in E. rewrite E. cbn [bind]. unfold rp_ncoeffs. rewrite A1.
  destruct (us_value (fun i => P * f i) rows _ u HVr eq_refl Hu) as (us & Eu & Lu & HU). rewrite Eu. cbn [bind].
  destruct (acc_rows_ok k L ps OKp convert_modulus (fun m x => x mod modulus m) X
      (fun q pj => - zinv (modulus pj) (modulus q)) qs)
    with (rows := rows) (hss := map (fun i => map2 (fun pj z => do! x <- get z i; Ok (mneg (pm_p pj) x)) ps invs) (seq 0 (length qs)))
      (outs := zero_outs n ps) (F := fun (_ : pmod) (_ : nat) => 0)
    as (outs & Eo & Ho).
  - intros q pj row Iq Ip Hrow.
    apply (sub_convert_modulus k L q pj row _ (moduli_in _ _ _ _ OKq Iq) (moduli_in _ _ _ _ OKp Ip) Hrow).
  - exact HVr.
  - rewrite firstn_all2 by (rewrite map_length, seq_length; lia).
    assert (K : forall l s, (forall i, (i < length l)%nat -> nth_error qs (s + i) = nth_error l i) ->
      Forall2 (fun q hs => mults hs ps (fun pj => - zinv (modulus pj) (modulus q))) l
        (map (fun i => map2 (fun pj z => do! x <- get z i; Ok (mneg (pm_p pj) x)) ps invs) (seq s (length l)))).
    { induction l as [|q l IH]; intros s Hs; [constructor|]. cbn [length seq map]. constructor.
      - unfold mults. rewrite firstn_all2.
        2:{ rewrite map2_length; lia. }
        assert (Eq : nth_error qs s = Some q) by (rewrite <- (Nat.add_0_r s); apply (Hs 0%nat); cbn; lia).
        assert (Hsl : (s < length qs)%nat) by (apply nth_error_Some; congruence).
        assert (Iq : In q qs) by (eapply nth_error_In; eauto).
        eapply map2_forall; [exact HV|]. intros pj z Ip Hz. cbv beta in *.
        destruct (firstn_get _ q qs z s Hz Hsl) as (w & Ew & Sw & Vw). rewrite (nth_error_nth _ _ q Eq) in Vw.
        exists (mneg (pm_p pj) w). rewrite Ew. split; [reflexivity|].
        pose proof (moduli_in _ _ _ _ OKp Ip) as O. apply (residue_neg k L pj O).
        apply (inverses_residue k L pj w (modulus q) O); try assumption.
        intros Dv. apply prime_div_prime in Dv; [|apply (ok_prime k L pj O)|apply (ok_prime k L q (moduli_in _ _ _ _ OKq Iq))].
        apply (HN q pj Iq Ip). congruence.
      - apply IH. intros i Hi. rewrite Nat.add_succ_comm. apply (Hs (S i)). cbn [length]. lia. }
    apply K. reflexivity.
  - apply (zero_outs_ok k L ps OKp).
  - rewrite Eo. cbn [bind].
    destruct (each_ok _ (fun m r => sub_is m L false r y)
      (fun pj o => do! cs <- seqr (map (fun x => do! u <- d_round D x; Ok (import_int (pm_p pj) u)) us);
         batch_add (pm_p pj) o cs) _ _ Ho) as (vs & Ev & Hvs).
    + intros m o I Hm. pose proof (moduli_in _ _ _ _ OKp I) as O. cbv beta in Hm.
      rewrite (seqr_map_nth _ us (fun i => import_int (pm_p m) (u i))).
      2:{ intros i x Ex. rewrite (proj2 (HU i x Ex)). reflexivity. }
      cbn [bind].
      assert (Hcs : sub_is m L false (map (fun i => import_int (pm_p m) (u i)) (seq 0 (length us))) u).
      { apply (rcoeff_form L m). split; [rewrite map_length, seq_length; exact Lu|]. intros i Hi.
        rewrite (nth_map_any _ _ 0%nat) by (rewrite seq_length; lia). rewrite seq_nth by lia. cbn [plus].
        apply (residue_import k L m O). apply (Hu i Hi). }
      destruct (sub_add k L m O false o _ _ _ Hm Hcs) as (r & Er & Hr). exists r. split; [exact Er|].
      apply (sub_ext k L m O false r _ _ Hr). intros i Hi. cbv beta.
      (* cancel Q modulo the prime of m *)
      pose proof (ok_prime k L m O) as Pm. pose proof (ok_q k L m O) as Q1.
      assert (NQ : ~ (modulus m | Q)).
      { unfold big_q. intros Dv.
        assert (RP : rel_prime (modulus m) (prodz (moduli qs))).
        { apply rel_prime_prodz. apply Forall_forall. intros x Hx. unfold moduli in Hx. apply in_map_iff in Hx.
          destruct Hx as (q & <- & Iq). apply prime_rel_prime; [exact Pm|]. intros Dx.
          apply prime_div_prime in Dx; [|exact Pm|apply (ok_prime k L q (moduli_in _ _ _ _ OKq Iq))].
          apply (HN q m Iq I). congruence. }
        destruct RP as [_ _ G]. specialize (G (modulus m) (Z.divide_refl _) Dv). apply Z.divide_1_r in G. lia. }
      assert (CQ : forall x z, cong (modulus m) (Q * x) (Q * z) -> cong (modulus m) x z).
      { intros x z C. unfold cong in *. replace (Q * x - Q * z) with (Q * (x - z)) in C by ring.
        apply prime_mult in C; [|exact Pm]. destruct C as [C|C]; [contradiction|exact C]. }
      apply CQ. rewrite (Hy i Hi). rewrite Z.add_0_l, Z.mul_add_distr_l.
      rewrite <- (sumz_mul_l Q).
      assert (PD : cong (modulus m) (P * f i) 0).
      { destruct (mod_divides ps m I) as [z Ez]. exists (z * f i). unfold P. rewrite Ez. ring. }
      transitivity (0 - (crt_value qs (P * f i) - u i * Q)); [|apply sub_cong; [symmetry; exact PD|reflexivity]].
      transitivity (sumz (map (fun q => -1 * (crt_digit qs (P * f i) q * hat_of qs q)) qs) + Q * u i).
      * apply add_cong; [|reflexivity]. apply sumz_cong. intros q Iq. cbv beta.
        change (X q i mod modulus q) with (crt_digit qs (P * f i) q).
        pose proof (moduli_in _ _ _ _ OKq Iq) as Oq.
        rewrite <- (hat_of_mul k L qs OKq q Iq).
        assert (ZI : cong (modulus m) (zinv (modulus m) (modulus q) * modulus q) 1).
        { apply zinv_ok; [exact Pm| |].
          - pose proof (prime_ge_2 _ Pm). pose proof (g_odd (pm_p m) (ok_good k L m O)) as Od. fold (modulus m) in Od.
            destruct (Z.eq_dec (modulus m) 2) as [E2|]; [rewrite E2 in Od; discriminate|lia].
          - intros Dx. apply prime_div_prime in Dx; [|exact Pm|apply (ok_prime k L q Oq)]. apply (HN q m Iq I). congruence. }
        set (d := crt_digit qs (P * f i) q). set (h := hat_of qs q).
        replace (modulus q * h * (- zinv (modulus m) (modulus q) * d))
          with (- (zinv (modulus m) (modulus q) * modulus q * (d * h))) by ring.
        rewrite ZI. apply cong_eq. ring.
      * rewrite (sumz_mul_l (-1)). unfold crt_value. apply cong_eq. ring.
    + rewrite Ev. cbn [bind]. eexists. split; [reflexivity|]. split; [reflexivity|]. split; [reflexivity|exact Hvs].
Qed.
End Exact.
