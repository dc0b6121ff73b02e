(** C64: RNS gadgets. *)
From Coq Require Import Znumtheory QArith Lia.
From Verif Require Import Base FinSum PolySpec Ring NegRing SymSpec Montgomery MontBatch Spec RnsPoly RnsSpec CrtMath RnsSub RnsProofs RnsBasis
  RnsCtx RnsCtxSpec RnsCtxProofs RnsCtxFacts ThmRnsCtx RnsCt RnsCtSpec RnsCtProofs RnsEncode RnsKey RnsKeySpec RnsDecode RnsGadget RnsGadgetSpec RnsGadgetProofs RnsExample.
Local Open Scope Z_scope.

(** Create: for logarithms of the bases between 1 and 30 the gadget vector is
    gadget_weights, and Decompose gives polynomials whose coefficients are at
    most B in absolute value and whose combination with the gadget vector is the
    given polynomial modulo the product of the primes. *)
Theorem C64_create :
  forall k L ms log_n log_bs hats invs B, moduli_ok k L ms -> distinct ms -> ms <> [] -> 0 < log_n ->
  length log_bs = length ms -> Forall (fun lb => 1 <= lb <= 30 /\ lb < k) log_bs ->
  Forall2 (fun m w => residue m w (hat_of ms m)) ms hats -> hat_inverses ms invs ->
  Forall2 (fun m lb => Z.min (2 ^ lb - 1) (modulus m / 2) <= B) ms log_bs ->
  exists g, rgadget_create log_n log_bs hats invs ms = Ok g /\ gadget_for ms L B g (gadget_weights ms log_bs).
Proof.
  intros k L ms log_n log_bs hats invs B OK DI NE Hn Ll Fl Hh Hv HB.
  exact (gadget_ok k L ms OK DI log_n log_bs hats invs B NE Hn Ll Fl Hh Hv HB).
Qed.

(** The same for the constants that the context of the caller gives for a
    level. *)
Theorem C64_create_for_level :
  forall k log_n qs ps t c l log_bs B, ctx_args k qs ps t -> ctx_made k log_n qs ps t c -> (l < length qs)%nat ->
  length log_bs = S l -> Forall (fun lb => 1 <= lb <= 30 /\ lb < k) log_bs ->
  Forall2 (fun m lb => Z.min (2 ^ lb - 1) (modulus m / 2) <= B) (at_level c l) log_bs ->
  exists hats invs g, main_complements c (Z.of_nat l) = Ok hats /\ main_crt_factors c (Z.of_nat l) = Ok invs /\
    rgadget_create log_n log_bs hats invs (at_level c l) = Ok g /\
    gadget_for (at_level c l) (Z.to_nat log_n) B g (gadget_weights (at_level c l) log_bs).
Proof.
  intros k log_n qs ps t c l log_bs B A M HL Ll Fl HB.
  destruct (C49_levels k log_n qs ps t c l A M HL) as ((hats & Eh & Hh) & (invs & Ei & Hi) & _).
  destruct (made_ok _ _ _ _ _ _ A M) as (L1 & L0 & Et & Mq & Mp & Oq & Op & D & _).
  pose proof (level_ok k log_n t qs ps c A M l) as OK. pose proof (level_distinct k log_n t qs ps c A M l) as DI.
  assert (LQ : length (rc_qs c) = length qs) by (rewrite <- Mq; unfold moduli; rewrite map_length; reflexivity).
  assert (LA : length (at_level c l) = S l) by (unfold at_level; rewrite firstn_length; lia).
  assert (NE : at_level c l <> []) by (intros E0; rewrite E0 in LA; discriminate).
  assert (LN : 0 < log_n) by lia.
  destruct (C64_create k _ (at_level c l) log_n log_bs hats invs B OK DI NE LN ltac:(congruence) Fl Hh Hi HB) as (g & Eg & Hg).
  exists hats, invs, g. auto.
Qed.

(** The components of the gadget vector: 2^(j lb) modulo their own prime, zero
    modulo the others. *)
Theorem C64_components :
  forall k L ms m lb j, moduli_ok k L ms -> distinct ms -> In m ms ->
  let w := hat_of ms m * zinv (modulus m) (hat_of ms m) * 2 ^ (Z.of_nat j * lb) in
  cong (modulus m) w (2 ^ (Z.of_nat j * lb)) /\ forall m', In m' ms -> modulus m' <> modulus m -> cong (modulus m') w 0.
Proof.
  intros k L ms m lb j OK DI I w. split.
  - unfold w. rewrite (Z.mul_comm (hat_of ms m)). rewrite (hat_inv_ok k L ms OK DI m I). apply cong_eq. ring.
  - intros m' I' N. destruct (hat_other k L ms OK m m' I I' ltac:(congruence)) as [y Ey]. rewrite Z.sub_0_r in Ey.
    exists (y * zinv (modulus m) (hat_of ms m) * 2 ^ (Z.of_nat j * lb)). unfold w. rewrite Ey at 1. ring.
Qed.

Theorem C64_create_errors :
  forall log_n log_bs hats invs ms, log_n <= 0 \/ ms = [] \/ length log_bs <> length ms \/ length hats <> length ms \/ length invs <> length ms ->
  rgadget_create log_n log_bs hats invs ms = Err InvalidArgument.
Proof.
  intros log_n log_bs hats invs ms H. unfold rgadget_create. destruct (Z.leb_spec log_n 0); [reflexivity|].
  destruct ms as [|m ms]; [reflexivity|]. set (M := m :: ms) in *.
  destruct (same_len log_bs M) eqn:E1; [|reflexivity]. destruct (same_len hats M) eqn:E2; [|reflexivity].
  destruct (same_len invs M) eqn:E3; [|reflexivity]. apply Nat.eqb_eq in E1, E2, E3.
  destruct H as [H|[H|[H|[H|H]]]]; [lia|discriminate|contradiction|contradiction|contradiction].
Qed.

Theorem C64_decompose_errors :
  forall g a ms, rp_ntt a = true \/ length ms <> length (rp_vs a) -> rg_decompose g a ms = Err InvalidArgument.
Proof.
  intros g a ms H. unfold rg_decompose. destruct (rp_ntt a) eqn:E; [reflexivity|]. destruct (same_len ms (rp_vs a)) eqn:E1; [|reflexivity].
  apply Nat.eqb_eq in E1. destruct H; [discriminate|contradiction].
Qed.

(** The logarithms of the bases are not checked: outside [1, 30] the call
    shifts an int out of range or divides by zero. *)
Theorem C64_log_base_refuted :
  forall log_n log_bs hats invs ms, 0 < log_n -> ms <> [] -> length log_bs = length ms -> length hats = length ms -> length invs = length ms ->
  Exists (fun lb => lb <= 0 \/ 31 <= lb) log_bs -> rgadget_create log_n log_bs hats invs ms = UB.
Proof.
  intros log_n log_bs hats invs ms Hn NE L1 L2 L3 H. unfold rgadget_create. destruct (Z.leb_spec log_n 0); [lia|].
  rewrite (ne_match ms) by exact NE. rewrite (same_len_eq _ _ L1), (same_len_eq _ _ L2), (same_len_eq _ _ L3). cbn [negb].
  assert (E : seqr (map2 (fun m lb => if (lb <=? 0) || (31 <=? lb) then UB else Ok (wrap (p_k (pm_p m)) (2 ^ lb))) ms log_bs) = UB).
  2:{ rewrite E. reflexivity. }
  clear -L1 H. revert ms L1. induction H as [lb log_bs H|lb log_bs H IH]; intros [|m ms] L1; try discriminate; cbn [map2 seqr].
  - destruct (Z.leb_spec lb 0); [reflexivity|]. destruct (Z.leb_spec 31 lb); [reflexivity|lia].
  - destruct ((lb <=? 0) || (31 <=? lb)); [reflexivity|]. injection L1 as L1. cbn [bind]. rewrite (IH ms L1). reflexivity.
Qed.

(** 97, 193 and 17 in bases 4, 16 and 32: 4 + 2 + 1 components. *)
Local Notation g64 := (do! c <- ctx_create 32 3 [97; 193; 17] [] 5;
  do! hats <- main_complements c 2; do! invs <- main_crt_factors c 2; do! g <- rgadget_create 3 [2; 4; 5] hats invs (rc_qs c); Ok (c, g)).

Example C64_example :
  Forall2 (fun q lb => Z.min (2 ^ lb - 1) (q / 2) <= 15) [97; 193; 17] [2; 4; 5] /\
  (do! ' (c, g) <- g64; Ok (rg_dimension g, length (gadget_weights (rc_qs c) [2; 4; 5]))) = Ok (7, 7)%nat /\
  (do! ' (c, g) <- g64;
   do! a <- rns_create (map (fun m => map (fun x => import_int (pm_p m) (x mod modulus m)) [96; 100; -5; 0; 1; 192; 7; 33]) (rc_qs c)) false;
   do! xs <- rg_decompose g a (rc_qs c);
   Ok (map (fun x => map2 (fun m v => map (export_int (pm_p m)) v) (rc_qs c) (rp_vs x)) (firstn 2 (skipn 4 xs)))) =
   Ok [[[0; 4; 12; 0; 1; 0; 7; 1]; [0; 4; 12; 0; 1; 0; 7; 1]; [0; 4; 12; 0; 1; 0; 7; 1]];
       [[6; 6; 11; 0; 0; 12; 0; 2]; [6; 6; 11; 0; 0; 12; 0; 2]; [6; 6; 11; 0; 0; 12; 0; 2]]].
Proof. split; [repeat constructor; vm_compute; discriminate|]. split; vm_compute; reflexivity. Qed.

Print Assumptions C64_create.
Print Assumptions C64_create_for_level.
Print Assumptions C64_components.
Print Assumptions C64_create_errors.
Print Assumptions C64_decompose_errors.
Print Assumptions C64_log_base_refuted.
