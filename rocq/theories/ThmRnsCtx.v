(** C43 (CRT interpolation), C49 (RNS contexts) and C57 (removal of the error
    from interpolated BGV plaintexts). *)
From Coq Require Import Znumtheory.
From Verif Require Import Base FinSum PolySpec Ring Montgomery MontBatch Ntt MontgomeryProofs Spec ArithFacts PrimeCheck
  NttFacts RnsPoly RnsSpec RnsCtx RnsCtxSpec CrtMath RnsSub RnsProofs RnsBasis RnsCtxProofs RnsCtxFacts RnsCrt.

(** ** C43 *)

(** For pairwise coprime moduli and inverses of Q/q_i, the interpolation returns
    for every coefficient the value in [0, Q) congruent to every residue, and
    no other value has this property. The big integer type has K bits; each
    Q * q_i must fit. *)
Theorem C43_interpolation :
  forall k K ms rows invs n,
  k <= K -> ms <> [] ->
  Forall (fun m => params_for k (modulus m) (pm_p m)) ms ->
  pairwise (moduli ms) ->
  Forall (fun m => big_q ms * modulus m <= 2 ^ K) ms ->
  Forall2 (fun m r => length r = n /\ Forall (stored (pm_p m)) r) ms rows ->
  hat_inverses ms invs ->
  exists xs, crt_interpolation K rows ms (rns_modulus_complements K ms) invs = Ok xs /\ length xs = n /\
  forall j, (j < n)%nat -> forall x,
    (0 <= x < big_q ms /\ Forall2 (fun m r => x mod modulus m = export_int (pm_p m) (nth j r 0)) ms rows) <-> x = nth j xs 0.
Proof.
  intros k K ms rows invs n HK NE PF PW FIT ROWS INV.
  destruct (crt_interp_ok k K ms rows invs n HK PF PW NE FIT ROWS INV) as (xs & E & Lx & H).
  exists xs. split; [exact E|]. split; [exact Lx|]. intros j Hj x. destruct (H j Hj) as [R C]. split.
  - intros [Rx Cx]. apply (cong_small (big_q ms)); [exact Rx|exact R|]. apply pairwise_cong; [exact PW|].
    intros i Hi. unfold moduli in Hi. rewrite map_length in Hi. destruct ms as [|d ms0] eqn:Em; [contradiction|]. rewrite <- Em in *.
    rewrite (nth_moduli ms d i Hi).
    pose proof (Forall2_nth _ _ _ d [] i Cx Hi) as A. pose proof (Forall2_nth _ _ _ d [] i C Hi) as B. cbv beta in A, B.
    rewrite Forall_forall in PF. destruct (PF (nth i ms d) (nth_In _ _ Hi)) as (_ & M1 & _). apply cong_iff; [lia|]. congruence.
  - intros ->. auto.
Qed.

(** RnsModulusComplements returns Q/q_i. *)
Theorem C43_complements :
  forall k K ms, k <= K -> Forall (fun m => params_for k (modulus m) (pm_p m)) ms -> big_q ms < 2 ^ K ->
  rns_modulus_complements K ms = map (fun m => big_q ms / modulus m) ms.
Proof.
  intros k K ms HK PF Hq. destruct ms as [|d ms0] eqn:Em; [reflexivity|]. rewrite <- Em in *.
  assert (FP : Forall (fun m => 0 < modulus m) ms) by (apply (Forall_impl _ (fun m H => Z.lt_trans 0 1 _ eq_refl (proj1 (proj2 H))) PF)).
  assert (Qpos : 0 < big_q ms) by (apply prodz_pos; unfold moduli; apply Forall_map; exact FP).
  assert (Kpos : 0 < K).
  { rewrite Forall_forall in PF. destruct (PF d) as (W & _); [rewrite Em; left; reflexivity|]. destruct W as [->|[->|[->| ->]]]; lia. }
  rewrite (complements_ok K ms Kpos FP Hq).
  apply (nth_ext _ _ 0 0); [rewrite !map_length, seq_length; reflexivity|]. rewrite map_length, seq_length. intros i Hi.
  rewrite (nth_indep _ 0 (hat (moduli ms) 0%nat)) by (rewrite map_length, seq_length; exact Hi). rewrite map_nth, seq_nth by exact Hi.
  rewrite (nth_indep _ 0 (big_q ms / modulus d)) by (rewrite map_length; exact Hi).
  rewrite (map_nth (fun m => big_q ms / modulus m)). cbn [Nat.add].
  assert (Hl : (i < length (moduli ms))%nat) by (unfold moduli; rewrite map_length; exact Hi).
  pose proof (hat_mul (moduli ms) i Hl) as E. rewrite (nth_moduli ms d i Hi) in E. fold (big_q ms) in E. rewrite <- E, Z.mul_comm.
  symmetry. apply Z.div_mul. rewrite Forall_forall in FP. pose proof (FP _ (nth_In ms d Hi)). lia.
Qed.

(** The condition of the property: Q^2 fits in the big integer. *)
Theorem C43_interpolation_square :
  forall k K ms rows invs n,
  k <= K -> ms <> [] -> Forall (fun m => params_for k (modulus m) (pm_p m)) ms -> pairwise (moduli ms) ->
  big_q ms * big_q ms <= 2 ^ K ->
  Forall2 (fun m r => length r = n /\ Forall (stored (pm_p m)) r) ms rows -> hat_inverses ms invs ->
  exists xs, crt_interpolation K rows ms (rns_modulus_complements K ms) invs = Ok xs /\ length xs = n /\
  forall j, (j < n)%nat -> forall x,
    (0 <= x < big_q ms /\ Forall2 (fun m r => x mod modulus m = export_int (pm_p m) (nth j r 0)) ms rows) <-> x = nth j xs 0.
Proof.
  intros k K ms rows invs n HK NE PF PW FIT ROWS INV. apply (C43_interpolation k); try assumption.
  assert (FP : Forall (fun m => 0 < modulus m) ms) by (apply (Forall_impl _ (fun m H => Z.lt_trans 0 1 _ eq_refl (proj1 (proj2 H))) PF)).
  assert (Qpos : 0 < big_q ms) by (apply prodz_pos; unfold moduli; apply Forall_map; exact FP).
  apply Forall_forall. intros m I. assert (modulus m <= big_q ms); [|nia].
  apply Z.divide_pos_le; [exact Qpos|]. apply prodz_divide. apply in_map, I.
Qed.

(** Wrong numbers of moduli or constants are rejected, as is an empty input. *)
Theorem C43_errors :
  forall K rows ms hats invs,
  rows = [] \/ length ms <> length rows \/ length hats <> length rows \/ length invs <> length rows ->
  crt_interpolation K rows ms hats invs = Err InvalidArgument.
Proof.
  intros K rows ms hats invs H. unfold crt_interpolation. destruct rows as [|r rows]; [reflexivity|].
  destruct H as [H|H]; [discriminate|]. unfold same_len.
  destruct (Nat.eqb_spec (length ms) (length (r :: rows))); [|reflexivity].
  destruct (Nat.eqb_spec (length hats) (length (r :: rows))); [|reflexivity].
  destruct (Nat.eqb_spec (length invs) (length (r :: rows))); [|reflexivity]. cbn [negb]. tauto.
Qed.

(** When Q * q_i does not fit the product wraps and the result is wrong: moduli
    97 and 193 with a 16-bit big integer. *)
Definition mod97 : result pmod := make_modulus 32 3 97.
Definition mod193 : result pmod := make_modulus 32 3 193.

Example C43_example :
  match mod97, mod193 with
  | Ok a, Ok b =>
      let ms := [a; b] in
      let invs := [mult_inverse (pm_p a) (import_int (pm_p a) 193); mult_inverse (pm_p b) (import_int (pm_p b) 97)] in
      let rows := map (fun m => map (import_int (pm_p m)) [12345; 18720; 0]) ms in
      crt_interpolation 64 rows ms (rns_modulus_complements 64 ms) invs = Ok [12345; 18720; 0] /\
      crt_interpolation 16 rows ms (rns_modulus_complements 16 ms) invs <> Ok [12345; 18720; 0]
  | _, _ => False
  end.
Proof. vm_compute. split; [reflexivity|discriminate]. Qed.

(** ** C57 *)

(** For noisy values c in [0, q) and 0 < t <= q the messages are the centred
    representatives of c modulo t. *)
Theorem C57_remove_error :
  forall K q t v, 0 < t <= q -> q < 2 ^ K -> Forall (fun x => 0 <= x < q) v ->
  remove_error_on_msb K v q t = Ok (map (fun x => centered q x mod t) v).
Proof. exact remove_msb_ok. Qed.

(** In particular m + t * e modulo q gives back m while |m + t e| stays below q/2. *)
Theorem C57_recovers_message :
  forall K q t m e, 0 < t <= q -> q < 2 ^ K -> 0 <= m < t -> - q < 2 * (m + t * e) < q ->
  remove_error_on_msb K [(m + t * e) mod q] q t = Ok [m].
Proof.
  intros K q t m e Ht Hq Hm He. rewrite C57_remove_error; try assumption; [|constructor; [apply Z.mod_pos_bound; lia|constructor]].
  cbn [map]. do 2 f_equal. rewrite (centered_eq q ((m + t * e) mod q) (m + t * e)); [|lia|unfold fits; lia|apply cong_mod].
  rewrite (Z.mul_comm t e), Z_mod_plus_full. apply Z.mod_small, Hm.
Qed.

Theorem C57_zero_plaintext_modulus : forall K q v, remove_error_on_msb K v q 0 = Err InvalidArgument.
Proof. reflexivity. Qed.

(** Without t <= q the subtraction wraps: with q = 17, t = 100 and 64-bit
    words the residue of the noisy value -1 does not become 99. *)
Theorem C57_plaintext_modulus_above_q_refuted :
  ~ (forall K q t v, 0 < t -> q < 2 ^ K -> t < 2 ^ K -> Forall (fun x => 0 <= x < q) v ->
     remove_error_on_msb K v q t = Ok (map (fun x => centered q x mod t) v)).
Proof.
  intros H. specialize (H 64 17 100 [16] ltac:(lia) ltac:(reflexivity) ltac:(reflexivity) ltac:(repeat constructor; lia)).
  vm_compute in H. discriminate.
Qed.

Example C57_example : remove_error_on_msb 128 [5 + 7 * 3; (5 - 7 * 3) mod 1000003; 0] 1000003 7 = Ok [5; 5; 0].
Proof. reflexivity. Qed.

(** ** C49 *)

(** What every factory returns: the requested degree, primes and plaintext
    modulus, with NTT parameters for each prime; every constant that does not
    depend on a level has its documented value. *)
Theorem C49_constants :
  forall k log_n qs ps t c, ctx_args k qs ps t -> ctx_made k log_n qs ps t c ->
  let Q := prodz qs in let P := prodz ps in
  rc_logn c = log_n /\ 0 < log_n /\ rc_t c = t /\ moduli (rc_qs c) = qs /\ moduli (rc_ps c) = ps /\
  moduli_ok k (Z.to_nat log_n) (rc_qs c) /\ moduli_ok k (Z.to_nat log_n) (rc_ps c) /\
  (* auxiliary moduli *)
  hat_inverses (rc_ps c) (rc_p_hat_invs c) /\
  Forall2 (fun p z => residues (rc_qs c) z (P / modulus p)) (rc_ps c) (rc_p_hat_mod_qs c) /\
  residues (rc_qs c) (rc_p_mod_qs c) P /\ inverses (rc_qs c) (rc_p_inv_mod_qs c) P /\
  Forall2 (fun p z => Forall2 (fun q w => stored (pm_p p) w /\ (export_int (pm_p p) w * modulus q) mod modulus p = 1)
     (rc_qs c) z) (rc_ps c) (rc_q_inv_mod_ps c) /\
  (* plaintext modulus *)
  rc_q_mod_t c = Q mod t /\ rc_p_mod_t c = P mod t /\ residues (rc_qs c) (rc_t_mod_qs c) t /\
  ((forall q, In q qs -> ~ (q | t)) -> inverses (rc_qs c) (rc_t_inv_mod_qs c) t) /\
  ((forall p, In p ps -> ~ (p | t)) -> inverses (rc_ps c) (rc_t_inv_mod_ps c) t).
Proof.
  intros k log_n qs ps t c A M Q P. assert (Ht : 1 < t < 2 ^ k) by apply A.
  destruct (made_ok _ _ _ _ _ _ A M) as (L1 & L0 & Et & Mq & Mp & Oq & Op & D & (T & T2 & T3 & T4 & T5 & T6)).
  destruct T as (U1 & U2 & U3 & U4 & U5 & U6 & U7 & U8).
  assert (EQ : Q = big_q (rc_qs c)) by (unfold Q, big_q; congruence). assert (EP : P = big_q (rc_ps c)) by (unfold P, big_q; congruence).
  rewrite EQ, EP. split; [exact L1|]. split; [exact L0|]. split; [exact Et|]. split; [exact Mq|]. split; [exact Mp|].
  split; [exact Oq|]. split; [exact Op|].
  split; [rewrite U5; apply (p_hat_invs_ok k _ _ _ Op D)|].
  split; [rewrite U6; apply (p_hat_mod_qs_ok k _ _ _ Oq Op)|].
  split; [rewrite U7; apply (p_mod_qs_ok k _ _ _ Oq Op)|].
  split; [rewrite U8; apply (p_inv_mod_qs_ok k _ _ _ Oq Op D)|].
  split; [rewrite U3; apply (q_inv_mod_ps_ok k _ _ _ Oq Op D)|].
  split; [rewrite T2, Et; apply (rem_product_ok k _ t _ Oq Ht)|].
  split; [rewrite T3, Et; apply (rem_product_ok k _ t _ Op Ht)|].
  split.
  { rewrite T4, Et. apply map_forall. intros m I. apply (residue_import k _ m (moduli_in _ _ _ _ Oq I)). lia. }
  split; intros N.
  - rewrite T5, Et. apply (t_inverses k _ t _ Oq); [lia|]. intros m I. apply N. rewrite <- Mq. apply in_map, I.
  - rewrite T6, Et. apply (t_inverses k _ t _ Op); [lia|]. intros m I. apply N. rewrite <- Mp. apply in_map, I.
Qed.

(** The constants for a level l, which has the first l + 1 main primes. *)
Theorem C49_levels :
  forall k log_n qs ps t c l, ctx_args k qs ps t -> ctx_made k log_n qs ps t c -> (l < length qs)%nat ->
  (exists ws, main_complements c (Z.of_nat l) = Ok ws /\
     Forall2 (fun m w => residue m w (hat_of (at_level c l) m)) (at_level c l) ws) /\
  (exists ws, main_crt_factors c (Z.of_nat l) = Ok ws /\ hat_inverses (at_level c l) ws) /\
  (exists rows, main_complement_residues c (Z.of_nat l) = Ok rows /\
     Forall2 (fun m z => residues (rc_ps c) z (hat_of (at_level c l) m)) (at_level c l) rows) /\
  (exists z, main_leveled_aux_residues c (Z.of_nat l) = Ok z /\ residues (rc_ps c) z (big_q (at_level c l))) /\
  (exists m z w, nth_error (rc_qs c) l = Some m /\ get (rc_prime_q_invs c) l = Ok z /\
     rnsint_prefix z l = Ok w /\ inverses (firstn l (rc_qs c)) w (modulus m)).
Proof.
  intros k log_n qs ps t c l A M HL.
  destruct (made_ok _ _ _ _ _ _ A M) as (L1 & L0 & Et & Mq & Mp & Oq & Op & D & (T & T2 & T3 & T4 & T5 & T6)).
  destruct T as (U1 & U2 & U3 & U4 & U5 & U6 & U7 & U8).
  assert (HL' : (l < length (rc_qs c))%nat) by (rewrite <- Mq in HL; unfold moduli in HL; rewrite map_length in HL; exact HL).
  unfold at_level.
  split; [apply (main_complements_ok k _ _ Oq l HL' c eq_refl U1)|].
  split; [apply (main_crt_factors_ok k _ _ _ Oq D l HL' c eq_refl U2)|].
  split; [apply (main_complement_residues_ok k _ _ _ Oq Op l HL' c eq_refl eq_refl)|].
  split; [apply (main_leveled_ok k _ _ _ Oq Op l HL' c eq_refl U4)|].
  destruct (nth_error (rc_qs c) l) as [m|] eqn:Em; [|apply nth_error_None in Em; lia].
  destruct (prime_q_invs_ok k _ _ _ Oq D l m Em) as (z & Ez & Lz & Hz). exists m, z, (firstn l z). rewrite U2.
  split; [reflexivity|]. split; [exact Ez|]. split.
  { unfold rnsint_prefix. destruct (Nat.ltb_spec (length z) l); [lia|reflexivity]. }
  unfold inverses.
  assert (G : forall (P : pmod -> Z -> Prop) xs ys, length xs = length ys ->
    (forall j x y, nth_error xs j = Some x -> nth_error ys j = Some y -> P x y) -> Forall2 P xs ys).
  { intros P. induction xs as [|x xs IH]; intros [|y ys] E H; try discriminate; constructor.
    - apply (H 0%nat); reflexivity.
    - apply IH; [cbn in E; lia|]. intros j a b Ha Hb. apply (H (S j)); assumption. }
  apply G; [rewrite !firstn_length; lia|]. intros j x y Hx Hy.
  apply nth_error_firstn in Hx. apply nth_error_firstn in Hy. destruct (Hz j x y (proj2 Hx) (proj2 Hy)) as (S & _ & N).
  split; [exact S|]. apply N. lia.
Qed.

(** A level outside the chain is rejected. *)
Theorem C49_bad_level :
  forall c l, l < 0 \/ Z.of_nat (length (rc_qs c)) <= l ->
  main_complements c l = Err InvalidArgument /\ main_crt_factors c l = Err InvalidArgument /\
  main_complement_residues c l = Err InvalidArgument /\ main_leveled_aux_residues c l = Err InvalidArgument.
Proof.
  intros c l H. assert (E : check_level c l = true).
  { unfold check_level. destruct (Z.ltb_spec l 0); [reflexivity|]. apply Z.leb_le. lia. }
  unfold main_complements, main_crt_factors, main_products, main_complement_residues, main_leveled_aux_residues. rewrite E. auto.
Qed.

(** The BFV constants modulo the plaintext modulus, and the inverses of the
    partial products, one for each level. *)
Theorem C49_bfv_constants :
  forall k log_n qs ps t c, ctx_args k qs ps t -> ctx_made_bfv k log_n qs ps t c ->
  (forall q, In q qs -> Z.gcd q t = 1) ->
  exists pt, rc_pt c = Some pt /\ params_for k t pt /\
    Forall2 (fun m w => stored pt w /\ export_int pt w = modulus m mod t) (rc_qs c) (rc_qs_mod_t c) /\
    Forall2 (fun m w => stored pt w /\ (export_int pt w * modulus m) mod t = 1) (rc_qs c) (rc_q_invs_mod_t c) /\
    length (rc_ql_invs_mod_t c) = length (rc_qs c) /\
    forall l w, nth_error (rc_ql_invs_mod_t c) l = Some w ->
      stored pt w /\ (export_int pt w * big_q (at_level c l)) mod t = 1.
Proof. exact created_pt. Qed.

(** Arguments that are rejected, whatever the others are. *)
Theorem C49_rejects :
  forall k log_n qs ps t, log_n <= 0 \/ t = 0 ->
  ctx_create k log_n qs ps t = Err InvalidArgument /\ ctx_create_bgv_ff k log_n qs ps t = Err InvalidArgument /\
  ctx_create_bfv k log_n qs ps t = Err InvalidArgument /\ ctx_create_bfv_ff k log_n qs ps t = Err InvalidArgument.
Proof.
  intros k log_n qs ps t H. assert (E : ctx_create k log_n qs ps t = Err InvalidArgument).
  { unfold ctx_create. destruct (Z.leb_spec log_n 0); [reflexivity|]. destruct (Z.eqb_spec t 0); [reflexivity|]. lia. }
  unfold ctx_create_bgv_ff, ctx_create_bfv, ctx_create_bfv_ff. rewrite E. cbn [bind]. destruct (t mod 2 =? 0); auto.
Qed.
Theorem C49_rejects_even :
  forall k log_n qs ps t, Z.even t = true ->
  ctx_create_bgv_ff k log_n qs ps t = Err InvalidArgument /\ ctx_create_bfv_ff k log_n qs ps t = Err InvalidArgument.
Proof.
  intros k log_n qs ps t H. unfold ctx_create_bgv_ff, ctx_create_bfv_ff.
  assert (E : t mod 2 = 0) by (rewrite Zmod_even, H; reflexivity). rewrite E. auto.
Qed.

(** The primes are not compared with each other: a repeated prime is accepted
    and the table of inverses then holds a zero. *)
Theorem C49_repeated_prime_accepted :
  exists c w, ctx_create 32 3 [97; 97] [] 5 = Ok c /\ main_crt_factors c 1 = Ok [w; w] /\
  forall m, In m (rc_qs c) -> export_int (pm_p m) w = 0.
Proof.
  destruct (ctx_create 32 3 [97; 97] [] 5) as [c| |] eqn:E; [|vm_compute in E; discriminate|vm_compute in E; discriminate].
  exists c, 0. split; [reflexivity|]. vm_compute in E. injection E as <-. split; [vm_compute; reflexivity|].
  intros m [<-|[<-|[]]]; vm_compute; reflexivity.
Qed.

(** a context with main primes 97, 193, 17, auxiliary primes 113, 241 *)
Definition ctx8 : result rctx := Eval vm_compute in ctx_create_bfv_ff 32 3 [97; 193; 17] [113; 241] 257.

Example C49_example :
  ctx_args 32 [97; 193; 17] [113; 241] 257 /\
  exists c, ctx_create_bfv_ff 32 3 [97; 193; 17] [113; 241] 257 = Ok c /\
    rc_q_mod_t c = 97 * 193 * 17 mod 257 /\
    map2 (fun m w => export_int (pm_p m) w) (rc_qs c) (rc_p_mod_qs c) = [113 * 241 mod 97; 113 * 241 mod 193; 113 * 241 mod 17].
Proof.
  split.
  - assert (P : Forall prime [97; 193; 17] /\ Forall prime [113; 241]).
    { split; repeat (apply Forall_cons; [apply (prime_by_trial _ 20); [lia|vm_compute; reflexivity]|]); apply Forall_nil. }
    destruct P as [P1 P2]. split; [right; left; reflexivity|]. split; [exact P1|]. split; [exact P2|].
    split; [repeat constructor; cbn; lia|lia].
  - eexists. split; [vm_compute; reflexivity|]. split; vm_compute; reflexivity.
Qed.

Print Assumptions C43_interpolation.
Print Assumptions C43_complements.
Print Assumptions C43_interpolation_square.
Print Assumptions C43_errors.
Print Assumptions C57_remove_error.
Print Assumptions C57_recovers_message.
Print Assumptions C57_plaintext_modulus_above_q_refuted.
Print Assumptions C49_constants.
Print Assumptions C49_levels.
Print Assumptions C49_bad_level.
Print Assumptions C49_bfv_constants.
Print Assumptions C49_rejects.
Print Assumptions C49_rejects_even.
Print Assumptions C49_repeated_prime_accepted.
