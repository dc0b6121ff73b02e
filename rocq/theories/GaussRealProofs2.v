(** Proofs for C87: the table. *)
From Coq Require Import Reals Lra Lia Sorted.
From Verif Require Import Base Prng Gauss GaussSpec ThmGauss GaussReal GaussRealSpec GaussRealProofs.
Local Open Scope R_scope.

Lemma running_length : forall ps a, length (running reals a ps) = length ps.
Proof. induction ps as [|p ps IH]; intros a; cbn; [reflexivity|]. f_equal. apply IH. Qed.
Lemma cdf_length ps : length (cdf_of reals ps) = length ps.
Proof. destruct ps as [|p ps]; cbn; [reflexivity|]. f_equal. apply running_length. Qed.
Lemma rsum_cons (p : R) (ps : list R) j : rsum (S (S j)) (fun i => nth i (p :: ps) 0) = p + rsum (S j) (fun i => nth i ps 0).
Proof. transitivity (rsum (1 + S j) (fun i => nth i (p :: ps) 0)); [reflexivity|]. rewrite rsum_add. cbn [rsum nth Nat.add]. lra. Qed.
Lemma running_nth : forall (ps : list R) (a : R) j, (j < length ps)%nat -> nth j (running reals a ps) 0 = a + rsum (S j) (fun i => nth i ps 0).
Proof.
  induction ps as [|p ps IH]; intros a j H; [cbn in H; lia|]. destruct j as [|j]; [cbn; lra|]. rewrite rsum_cons.
  cbn [running nth length] in *. etransitivity; [apply (IH (p + a)); lia|]. lra.
Qed.
Lemma cdf_nth (ps : list R) j : (j < length ps)%nat -> nth j (cdf_of reals ps) 0 = rsum (S j) (fun i => nth i ps 0).
Proof.
  destruct ps as [|p ps]; intros H; [cbn in H; lia|]. cbn [cdf_of]. destruct j as [|j]; [cbn; lra|]. rewrite rsum_cons. cbn [nth length] in *.
  apply running_nth. lia.
Qed.

Lemma seqr_floor ps : Forall (fun p => 0 <= p < 2) ps ->
  seqr (map (fun p => f_to_unsigned reals 64 (f_mul reals p (IZR (2 ^ 63)))) ps) = Ok (map (fun p => Rfloor (p * IZR (2 ^ 63))) ps).
Proof.
  induction 1 as [|p ps Hp Hps IH]; cbn [map seqr]; [reflexivity|]. rewrite IH.
  change (f_mul reals p (IZR (2 ^ 63))) with (p * IZR (2 ^ 63)). cbn [f_to_unsigned reals].
  assert (H63 : IZR (2 ^ 63) = 9223372036854775808) by reflexivity. rewrite trunc_nonneg by (rewrite H63; lra).
  set (x := p * IZR (2 ^ 63)) in *. assert (Hx : 0 <= x < 18446744073709551616) by (unfold x; rewrite H63; lra).
  pose proof (floor_nonneg x (proj1 Hx)). pose proof (floor_spec x).
  assert ((Rfloor x < 18446744073709551616)%Z) by (apply lt_IZR; lra).
  rewrite (proj2 (Z.leb_le 0 (Rfloor x))) by lia. rewrite (proj2 (Z.ltb_lt (Rfloor x) (2 ^ 64))) by (change (2 ^ 64)%Z with 18446744073709551616%Z; lia).
  reflexivity.
Qed.

(** everything Create does *)
Lemma create_ok s : least_base <= s -> s <= IZR (2 ^ 26) -> exists b, (0 < b)%Z /\ 8 * s <= IZR b < 8 * s + 8 /\
  create_real s = Ok {| g_s_base := s : F reals; g_cdt := map (fun j => Rfloor (cumulative s b (- b + Z.of_nat j) * IZR (2 ^ 63))) (seq 0 (Z.to_nat (2 * b + 1))) |}.
Proof.
  intros Hlo Hhi. pose proof least_pos as L. change (IZR (2 ^ 26)) with 67108864 in Hhi. exists (8 * Rceil s)%Z.
  pose proof (ceil_spec s) as Hc. assert (C1 : (0 < Rceil s)%Z) by (apply lt_IZR; lra). assert (C2 : (Rceil s < 67108866)%Z) by (apply lt_IZR; lra).
  assert (Hb : 8 * s <= IZR (8 * Rceil s) < 8 * s + 8) by (rewrite mult_IZR; lra).
  split; [lia|]. split; [exact Hb|].
  unfold create_real, g_create. cbn [f_lt f_mul f_sqrt f_of_Z f_smoothing reals]. fold least_base.
  destruct (Rltb_spec s least_base); [lra|]. cbn [f_ceil f_to_int reals]. rewrite <- mult_IZR, trunc_IZR.
  set (b := (8 * Rceil s)%Z) in *. assert (Bb : (0 < b < 2 ^ 30)%Z) by (change (2 ^ 30)%Z with 1073741824%Z; lia). change (2 ^ 30)%Z with 1073741824%Z in Bb.
  rewrite (proj2 (Z.leb_le (- 2 ^ 31) b)) by (change (- 2 ^ 31)%Z with (-2147483648)%Z; lia).
  rewrite (proj2 (Z.ltb_lt b (2 ^ 31))) by (change (2 ^ 31)%Z with 2147483648%Z; lia). cbn [andb bind].
  rewrite (proj2 (Z.leb_gt (2 ^ 31) (2 * b + 1))) by (change (2 ^ 31)%Z with 2147483648%Z; lia).
  set (N := Z.to_nat (2 * b + 1)).
  match goal with |- context [cdf_of reals ?l] => set (ps := l) end.
  assert (Lps : length ps = N) by (unfold ps; rewrite !map_length, seq_length; reflexivity).
  assert (Nps : forall i, (i < N)%nat -> nth i ps 0 = density s (IZR (- b + Z.of_nat i))).
  { intros i Hi. unfold ps. rewrite map_map.
    match goal with |- nth i (map ?f _) 0 = _ => rewrite (nth_indep _ 0 (f 0%nat)) by (rewrite map_length, seq_length; exact Hi); rewrite (map_nth f) end.
    rewrite seq_nth by exact Hi. cbn [Nat.add]. unfold density. cbn [f_div f_exp f_mul f_of_Z f_sqrt f_pi reals].
    unfold Rdiv at 1. rewrite (Rmult_comm (exp _)). rewrite (Rmult_comm (sqrt (2 * PI)) s). f_equal. f_equal. field. lra. }
  assert (Ncdf : forall j, (j < N)%nat -> nth j (cdf_of reals ps) 0 = cumulative s b (- b + Z.of_nat j)).
  { intros j Hj. assert (Hj' : (j < length ps)%nat) by (rewrite Lps; exact Hj). etransitivity; [exact (cdf_nth ps j Hj')|]. unfold cumulative. replace (Z.to_nat (- b + Z.of_nat j + b + 1)) with (S j) by lia.
    apply rsum_ext. intros i Hi. apply Nps. lia. }
  rewrite seqr_floor.
  - cbn [bind]. f_equal. f_equal. apply nth_ext with (d := 0%Z) (d' := 0%Z); [rewrite !map_length, cdf_length, seq_length; exact Lps|].
    intros j Hj. rewrite map_length, cdf_length, Lps in Hj.
    rewrite (nth_indep _ 0%Z (Rfloor (0 * IZR (2 ^ 63)))) by (rewrite map_length, cdf_length, Lps; exact Hj).
    rewrite (map_nth (fun p => Rfloor (p * IZR (2 ^ 63)))). rewrite Ncdf by exact Hj.
    match goal with |- _ = nth j (map ?f _) _ => rewrite (nth_indep _ 0%Z (f 0%nat)) by (rewrite map_length, seq_length; exact Hj); rewrite (map_nth f) end.
    rewrite seq_nth by exact Hj. reflexivity.
  - apply Forall_forall. intros p Hp. destruct (In_nth _ _ 0 Hp) as (j & Hj & <-). rewrite cdf_length, Lps in Hj. rewrite Ncdf by exact Hj.
    unfold cumulative. split; [apply rsum_nonneg; intros; left; apply density_pos; lra|].
    apply Rle_lt_trans with (cumulative s b b); [|apply total; try lra; [lia|exists (Rceil s); reflexivity]].
    unfold cumulative. apply rsum_mono; [lia|]. intros; left; apply density_pos; lra.
Qed.
