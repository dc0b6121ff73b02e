(** C91: the floating-point value of a 256-bit integer. *)
From Coq Require Import Lia.
From Verif Require Import Base ZLemmas Int256 Int256Spec Int256Float Int256FloatSpec Int256FloatProofs.

(** The types that can hold 2^256: the result is always finite, it is a
    floating-point number of the type, and its distance from the integer is at
    most (2^(b+1) + 1) / 2^(2b) of it, b being the precision: just above one
    unit in the last place, where rounding once would give half of that. *)
Theorem C91_error : forall (F : ftype) (x : u256),
  1 <= ft_prec F -> 257 <= ft_emax F -> is_u256 x ->
  exists d, u_to_float F x = Finite d /\
            representable (ft_prec F) d /\
            2 ^ (2 * ft_prec F) * Z.abs (d - value x) <= (2 ^ (ft_prec F + 1) + 1) * value x.
Proof.
  intros F x B E H. exists (rne (ft_prec F) (fsum F x)). split; [apply convert_finite; assumption|].
  split; [|apply final_err; assumption]. apply rne_rep; [exact B|]. unfold fsum.
  destruct H as [Hh Hl]. pose proof (rne_nonneg _ B (u_lo x) ltac:(lia)). pose proof (rne_nonneg _ B (u_hi x) ltac:(lia)). nia.
Qed.

(** for double: a relative error of at most 2^-52 + 2^-106 *)
Theorem C91_double : forall x, is_u256 x ->
  exists d, u_to_float double_type x = Finite d /\
            representable 53 d /\
            2 ^ 106 * Z.abs (d - value x) <= (2 ^ 54 + 1) * value x.
Proof. intros x H. apply (C91_error double_type x); cbn; try lia. exact H. Qed.

(** An integer that is itself a number of the type is converted exactly, in
    particular every integer up to 2^53 for double. *)
Theorem C91_exact : forall (F : ftype) (x : u256),
  1 <= ft_prec F -> 257 <= ft_emax F -> is_u256 x ->
  representable (ft_prec F) (value x) ->
  u_to_float F x = Finite (value x).
Proof.
  intros F x B E H R. rewrite (convert_finite F B x E H), (exact_sum F B x H R). f_equal. apply rne_id; [exact B| |exact R].
  unfold value, is_u256 in *. lia.
Qed.

Theorem C91_exact_small : forall x, is_u256 x -> value x <= 2 ^ 53 -> u_to_float double_type x = Finite (value x).
Proof.
  intros x H L. apply C91_exact; [cbn; lia|cbn; lia|exact H|]. apply rep_small; [cbn; lia|]. cbn [double_type ft_prec].
  unfold value, is_u256 in *. lia.
Qed.

(** Below 2^128 the result is the nearest number of the type. *)
Theorem C91_nearest_below : forall (F : ftype) (x : u256),
  1 <= ft_prec F -> 257 <= ft_emax F -> is_u256 x -> value x < 2 ^ 128 ->
  exists d, u_to_float F x = Finite d /\ nearest (ft_prec F) (value x) d.
Proof.
  intros F x B E H L. exists (rne (ft_prec F) (value x)). assert (V : 0 <= value x) by (unfold value, is_u256 in *; lia).
  split; [|apply rne_nearest; assumption]. rewrite (convert_finite F B x E H). f_equal. destruct H as [Hh Hl].
  assert (Eh : u_hi x = 0) by (unfold value in L; nia). unfold fsum, value. rewrite Eh.
  rewrite (rne_id _ B 0) by (try apply rep_small; try lia; exact B || (pose proof (pow_pos (ft_prec F)); lia)).
  change (0 * 2 ^ 128) with 0. rewrite Z.add_0_r, Z.add_0_l. apply rne_id; [exact B|apply rne_nonneg; lia|apply rne_rep; lia].
Qed.

(** The conversion never reverses the order. *)
Theorem C91_monotone : forall (F : ftype) (x y : u256),
  1 <= ft_prec F -> 257 <= ft_emax F -> is_u256 x -> is_u256 y ->
  value x <= value y -> fle (u_to_float F x) (u_to_float F y).
Proof.
  intros F x y B E Hx Hy V. rewrite (convert_finite F B x E Hx), (convert_finite F B y E Hy). cbn [fle]. apply sum_mono; assumption.
Qed.

(** float: finite exactly below 2^128 - 2^103, and then the nearest float; from
    there on, infinity. *)
Theorem C91_float : forall x, is_u256 x ->
  (value x < 2 ^ 128 - 2 ^ 103 -> exists f, u_to_float float_type x = Finite f /\ nearest 24 (value x) f) /\
  (2 ^ 128 - 2 ^ 103 <= value x -> u_to_float float_type x = Infinite).
Proof.
  intros x [Hh Hl]. assert (B : 1 <= 24) by lia.
  destruct (Z.eq_dec (u_hi x) 0) as [Eh|Nh].
  - assert (V : value x = u_lo x) by (unfold value; lia). rewrite V.
    assert (U : u_to_float float_type x = fplus float_type (to_float float_type (u_lo x)) (Finite 0)).
    { unfold u_to_float. rewrite Eh. reflexivity. }
    rewrite U. clear U V. unfold to_float. cbv zeta. change (ft_prec float_type) with 24. change (ft_emax float_type) with 128. split; intros L.
    + assert (M : rne 24 (u_lo x) <= 2 ^ 128 - 2 ^ 104).
      { replace (2 ^ 128 - 2 ^ 104) with (rne 24 (2 ^ 128 - 2 ^ 103 - 1)) by (vm_compute; reflexivity). apply rne_mono; lia. }
      exists (rne 24 (u_lo x)). split; [|apply rne_nearest; lia].
      replace (rne 24 (u_lo x) <? 2 ^ 128) with true by (symmetry; apply Z.ltb_lt; lia). cbn [fplus]. unfold to_float. cbv zeta. change (ft_prec float_type) with 24. change (ft_emax float_type) with 128.
      rewrite Z.add_0_r. rewrite (rne_id 24 B (rne 24 (u_lo x))) by (try apply rne_nonneg; try apply rne_rep; lia).
      replace (rne 24 (u_lo x) <? 2 ^ 128) with true by (symmetry; apply Z.ltb_lt; lia). reflexivity.
    + assert (M : 2 ^ 128 <= rne 24 (u_lo x)).
      { replace (2 ^ 128) with (rne 24 (2 ^ 128 - 2 ^ 103)) by (vm_compute; reflexivity). apply rne_mono; lia. }
      replace (rne 24 (u_lo x) <? 2 ^ 128) with false by (symmetry; apply Z.ltb_ge; lia). reflexivity.
  - assert (V : 2 ^ 128 <= value x) by (unfold value; nia). split; [lia|]. intros _.
    assert (M : 1 <= rne 24 (u_hi x)).
    { change 1 with (rne 24 1) at 1. apply rne_mono; lia. }
    assert (L : ldexp float_type (to_float float_type (u_hi x)) 128 = Infinite).
    { unfold to_float. cbv zeta. change (ft_prec float_type) with 24. change (ft_emax float_type) with 128. destruct (rne 24 (u_hi x) <? 2 ^ 128); [|reflexivity].
      cbn [ldexp]. change (ft_emax float_type) with 128. replace (rne 24 (u_hi x) * 2 ^ 128 <? 2 ^ 128) with false by (symmetry; apply Z.ltb_ge; lia). reflexivity. }
    unfold u_to_float. rewrite L. destruct (to_float float_type (u_lo x)); reflexivity.
Qed.

(** The result is not always the nearest double: the halves are rounded before
    they are added. (2^53 + 3) 2^128 - 1 becomes (2^53 + 4) 2^128, though
    (2^53 + 2) 2^128 is closer. *)
Definition twice_rounded : u256 := {| u_hi := 2 ^ 53 + 2; u_lo := 2 ^ 128 - 1 |}.

Theorem C91_nearest_refuted :
  is_u256 twice_rounded /\
  u_to_float double_type twice_rounded = Finite ((2 ^ 53 + 4) * 2 ^ 128) /\
  representable 53 ((2 ^ 53 + 2) * 2 ^ 128) /\
  Z.abs ((2 ^ 53 + 2) * 2 ^ 128 - value twice_rounded) < Z.abs ((2 ^ 53 + 4) * 2 ^ 128 - value twice_rounded).
Proof.
  split; [unfold is_u256; cbn [twice_rounded u_hi u_lo]; lia|]. split; [vm_compute; reflexivity|].
  split; [exists (2 ^ 52 + 1), 129; split; [lia|split; [lia|vm_compute; reflexivity]]|]. vm_compute. reflexivity.
Qed.

(** the hypotheses are met by the types of the machine, and the results are not
    trivial: 2^200 + 2^130 in each type *)
Example C91_example :
  let x := {| u_hi := 2 ^ 72 + 4; u_lo := 1 |} in
  is_u256 x /\
  1 <= ft_prec long_double_type /\ 257 <= ft_emax long_double_type /\ 257 <= ft_emax double_type /\
  u_to_float float_type x = Infinite /\
  u_to_float double_type x = Finite (2 ^ 200) /\
  u_to_float long_double_type x = Finite (2 ^ 200) /\
  u_to_float float_type {| u_hi := 0; u_lo := 2 ^ 25 + 3 |} = Finite (2 ^ 25 + 4) /\
  u_to_float double_type {| u_hi := 2 ^ 40 + 1; u_lo := 0 |} = Finite (2 ^ 168 + 2 ^ 128).
Proof.
  cbv zeta. split; [unfold is_u256; cbn [u_hi u_lo]; lia|]. split; [cbn; lia|]. split; [cbn; lia|]. split; [cbn; lia|].
  split; [vm_compute; reflexivity|]. split; [vm_compute; reflexivity|]. split; [vm_compute; reflexivity|]. split; vm_compute; reflexivity.
Qed.

Print Assumptions C91_error.
Print Assumptions C91_double.
Print Assumptions C91_exact.
Print Assumptions C91_exact_small.
Print Assumptions C91_nearest_below.
Print Assumptions C91_monotone.
Print Assumptions C91_float.
Print Assumptions C91_nearest_refuted.
