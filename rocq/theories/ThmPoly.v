(** Property theorems C18-C20: polynomials. *)
From Coq Require Import Znumtheory.
From Verif Require Import Base FinSum PolySpec Ring Montgomery MontBatch Ntt Poly MontgomeryProofs
  MontBatchProofs Spec PolyView ArithFacts NttFacts PolyFacts PrimeCheck ThmArith.

(** [ntt_poly p L a]: a has 2^L stored words. [coeff p np a i]: coefficient i
    read through InverseNtt and ExportInt. [negacyclic n f g k]: coefficient k
    of f*g mod X^n+1. [is_poly p L np r f]: the call r succeeds with a
    polynomial whose coefficients are f modulo m. *)
Definition is_poly (p : mparams) (L : nat) (np : nttp) (r : result poly) (f : nat -> Z) : Prop :=
  exists c, r = Ok c /\ ntt_poly p L c /\
    forall i, (i < 2 ^ L)%nat -> coeff p np c i = f i mod p_m p.

(** ** C18 *)

Theorem C18_convert_to_ntt :
  forall k m p L np v, params_for k m p -> ntt_for p L np ->
  length v = (2 ^ L)%nat -> Forall (stored p) v ->
  is_poly p L np (convert_to_ntt p np v) (fun i => export_int p (nth i v 0)).
Proof. intros k m p L np v H HN. destruct (mk_ctx k m p L np H HN) as (C & _). apply convert_coeff, C. Qed.

Theorem C18_mul :
  forall k m p L np a b, params_for k m p -> ntt_for p L np -> ntt_poly p L a -> ntt_poly p L b ->
  is_poly p L np (poly_mul p a b) (negacyclic (2 ^ L) (coeff p np a) (coeff p np b)) /\
  is_poly p L np (do! cb <- poly_constants p b; poly_mul_constant p a cb)
    (negacyclic (2 ^ L) (coeff p np a) (coeff p np b)).
Proof.
  intros k m p L np a b H HN Ha Hb. destruct (mk_ctx k m p L np H HN) as (C & _).
  split; [apply mul_coeff|apply mul_constant_coeff]; assumption.
Qed.

Theorem C18_add_sub_neg :
  forall k m p L np a b, params_for k m p -> ntt_for p L np -> ntt_poly p L a -> ntt_poly p L b ->
  is_poly p L np (poly_add p a b) (fun i => coeff p np a i + coeff p np b i) /\
  is_poly p L np (poly_sub p a b) (fun i => coeff p np a i - coeff p np b i) /\
  is_poly p L np (Ok (poly_neg p a)) (fun i => - coeff p np a i).
Proof.
  intros k m p L np a b H HN Ha Hb. destruct (mk_ctx k m p L np H HN) as (C & _).
  split; [apply add_coeff|split; [apply sub_coeff|apply neg_coeff]]; assumption.
Qed.

Theorem C18_mul_scalar :
  forall k m p L np a s, params_for k m p -> ntt_for p L np -> ntt_poly p L a -> stored p s ->
  is_poly p L np (poly_mul_scalar p a s) (fun i => export_int p s * coeff p np a i).
Proof.
  intros k m p L np a s H HN Ha Hs. destruct (mk_ctx k m p L np H HN) as (C & _).
  apply mul_scalar_coeff; assumption.
Qed.

Theorem C18_fused_mul_add :
  forall k m p L np x a b, params_for k m p -> ntt_for p L np ->
  ntt_poly p L x -> ntt_poly p L a -> ntt_poly p L b ->
  let f := fun i => coeff p np x i + negacyclic (2 ^ L) (coeff p np a) (coeff p np b) i in
  (k <> 16 -> is_poly p L np (poly_fused_mul_add p x a b) f) /\
  is_poly p L np (do! cb <- poly_constants p b; poly_fused_mul_constant_add p x a cb) f.
Proof.
  intros k m p L np x a b H HN Hx Ha Hb. destruct (mk_ctx k m p L np H HN) as (C & <- & _).
  cbv zeta. split; [intros; apply fused_coeff|apply fused_constant_coeff]; assumption.
Qed.

(** The coefficients determine the polynomial. *)
Theorem C18_coefficients_determine :
  forall k m p L np a b, params_for k m p -> ntt_for p L np -> ntt_poly p L a -> ntt_poly p L b ->
  (forall i, (i < 2 ^ L)%nat -> coeff p np a i = coeff p np b i) ->
  forall j, (j < 2 ^ L)%nat -> export_int p (nth j a 0) = export_int p (nth j b 0).
Proof.
  intros k m p L np a b H HN. destruct (mk_ctx k m p L np H HN) as (C & _). apply coeff_determines, C.
Qed.

Theorem C18_length_mismatch :
  forall p x a b, length a <> length b ->
  poly_add p a b = Err InvalidArgument /\ poly_sub p a b = Err InvalidArgument /\
  poly_mul p a b = Err InvalidArgument /\
  poly_fused_mul_add p a b x = Err InvalidArgument /\ poly_fused_mul_add p a x b = Err InvalidArgument /\
  (do! cb <- poly_constants p b; poly_mul_constant p a cb) = Err InvalidArgument /\
  (do! cb <- poly_constants p b; poly_fused_mul_constant_add p a x cb) = Err InvalidArgument /\
  (do! cx <- poly_constants p x; poly_fused_mul_constant_add p a b cx) = Err InvalidArgument.
Proof.
  intros p x a b H.
  assert (E : forall A B (u : list A) (v : list B), length u <> length v -> same_len u v = false).
  { intros A B u v N. apply Bool.not_true_iff_false. rewrite same_len_spec. exact N. }
  unfold poly_add, poly_sub, poly_mul, poly_fused_mul_add, poly_mul_constant, poly_fused_mul_constant_add,
    batch_add, batch_sub, batch_mul, batch_fused_mul_add, batch_mul_constant, batch_fused_mul_constant_add.
  rewrite !PolyProofs.constants_ok. cbn [bind]. unfold PolyProofs.const_of. cbn [cp_c cp_cb].
  rewrite (E _ _ a b H). rewrite (E _ _ a (map (fun y => fst (get_constant p y)) b)) by (rewrite map_length; exact H).
  cbn [negb orb]. rewrite !orb_true_r. cbn [orb].
  split; [reflexivity|]. split; [reflexivity|]. split; [reflexivity|]. split; [reflexivity|].
  split; [reflexivity|]. split; [reflexivity|]. split; reflexivity.
Qed.

(** A small context used by the examples: 97 = 1 mod 32, eight coefficients. *)
Definition p97 : mparams := Eval vm_compute in
  (params_make 16 97).
Lemma p97_for : params_for 16 97 p97.
Proof. split; [left; reflexivity|]. split; [lia|vm_compute; reflexivity]. Qed.
Lemma prime_97 : prime 97.
Proof. apply (prime_by_trial _ 20%nat); [lia|vm_compute; reflexivity]. Qed.
Definition np8 : nttp := Eval vm_compute in
  (match init_ntt p97 3 with Ok np => np | _ => Build_nttp 0 0 [] [] [] [] [] end).
Lemma np8_for : ntt_for p97 3 np8.
Proof. split; [exact prime_97|vm_compute; reflexivity]. Qed.

Definition poly8 (l : list Z) : poly :=
  match convert_to_ntt p97 np8 (map (import_int p97) l) with Ok a => a | _ => [] end.
Definition a8 := poly8 [1; 2; 3; 4; 5; 6; 7; 8].
Definition b8 := poly8 [0; 1; 0; 0; 0; 0; 0; 96].

Example C18_example :
  ntt_poly p97 3 a8 /\ ntt_poly p97 3 b8 /\
  match poly_mul p97 a8 b8 with
  | Ok c => map (coeff p97 np8 c) (seq 0 8) = [91; 4; 6; 8; 10; 12; 14; 6]
  | _ => False
  end.
Proof.
  assert (D : forall a, length a = 8%nat -> forallb (fun x => (0 <=? x) && (x <=? 97)) a = true -> ntt_poly p97 3 a).
  { intros a La H. split; [exact La|]. apply Forall_forall. intros x Hx.
    rewrite forallb_forall in H. apply H, andb_true_iff in Hx. destruct Hx as [H1 H2].
    apply Z.leb_le in H1, H2. split; assumption. }
  split; [apply D; vm_compute; reflexivity|]. split; [apply D; vm_compute; reflexivity|].
  vm_compute. reflexivity.
Qed.

(** ** C19 *)

Theorem C19_substitute :
  forall k m p L np a power, params_for k m p -> ntt_for p L np -> ntt_poly p L a ->
  0 < power < 2 * Z.of_nat (2 ^ L) -> Z.odd power = true ->
  is_poly p L np (poly_substitute np a power) (substituted (2 ^ L) (Z.to_nat power) (coeff p np a)).
Proof.
  intros k m p L np a power H HN. destruct (mk_ctx k m p L np H HN) as (C & _). apply substitute_coeff, C.
Qed.

Theorem C19_substitute_rejects :
  forall np a power,
  power < 0 \/ Z.even power = true \/ 2 * Z.of_nat (length a) <= power ->
  poly_substitute np a power = Err InvalidArgument.
Proof. exact substitute_rejects. Qed.

(** The specification itself: f(X^power) evaluated at any root x of X^n+1
    is f evaluated at x^power. *)
Theorem C19_substituted_is_composition :
  forall m n power f x, (0 < n)%nat -> cong m (x ^ Z.of_nat n) (-1) ->
  cong m (peval n (substituted n power f) x) (peval n f (x ^ Z.of_nat power)).
Proof. exact peval_substituted. Qed.

Example C19_example :
  match poly_substitute np8 a8 3 with
  | Ok c => map (coeff p97 np8 c) (seq 0 8) = [1; 93; 7; 2; 92; 8; 3; 91]
  | _ => False
  end.
Proof. vm_compute. reflexivity. Qed.

(** ** C20 *)

Theorem C20_serialize :
  forall k m p a, params_for k m p -> Forall (stored p) a ->
  (0 < length a)%nat -> Z.of_nat (length a) <= 2 ^ 15 ->
  exists s, poly_serialize p a = Ok s /\ sp_num s = Z.of_nat (length a) /\
    poly_deserialize p s = Ok a.
Proof.
  intros k m p a H Ha Hl Hmax. pose proof (pf_good _ _ _ H) as (G & <- & <-).
  destruct (serialize_vector_ok p G a Hl Hmax) as (s & E & _ & _ & D).
  { eapply Forall_impl; [|exact Ha]. intros x Hx. apply rep_logm; assumption. }
  unfold poly_serialize. rewrite E. cbn [bind]. eexists. split; [reflexivity|]. split; [reflexivity|].
  unfold poly_deserialize, max_num_coeffs. cbn [sp_num sp_coeffs]. rewrite Z.gtb_ltb.
  destruct (Z.leb_spec (Z.of_nat (length a)) 0); [lia|].
  destruct (Z.ltb_spec (2 ^ 15) (Z.of_nat (length a))); [lia|]. exact D.
Qed.

(** For every message: never undefined behaviour; success exactly for counts
    in 1..2^15 with enough bytes. *)
Theorem C20_deserialize_total :
  forall k m p s, params_for k m p -> Z.of_nat (length (sp_coeffs s)) < 2 ^ 31 ->
  match poly_deserialize p s with
  | Ok a => 1 <= sp_num s <= 2 ^ 15 /\ Z.of_nat (length a) = sp_num s /\
            Forall (fun x => 0 <= x < 2 ^ p_logm p) a
  | Err c => c = InvalidArgument /\
      (sp_num s <= 0 \/ 2 ^ 15 < sp_num s \/
       8 * Z.of_nat (length (sp_coeffs s)) < sp_num s * p_logm p)
  | UB => False
  end.
Proof.
  intros k m p s H Hs. pose proof (pf_good _ _ _ H) as (G & <- & <-).
  unfold poly_deserialize. destruct (Z.leb_spec (sp_num s) 0); [split; [reflexivity|lia]|].
  rewrite Z.gtb_ltb. unfold max_num_coeffs.
  destruct (Z.ltb_spec (2 ^ 15) (sp_num s)); [split; [reflexivity|lia]|].
  pose proof (deserialize_vector_spec p G (sp_num s) (sp_coeffs s) Hs) as D.
  unfold max_num_coeffs in D.
  destruct (mdeserialize_vector p (sp_num s) (sp_coeffs s)) as [a|c|]; [|destruct D as [-> D]|exact D].
  - destruct D as (D1 & D2 & D3). split; [lia|]. split; assumption.
  - split; [reflexivity|]. lia.
Qed.

Theorem C20_serialize_rejects :
  forall p a, a = [] \/ 2 ^ 15 < Z.of_nat (length a) -> poly_serialize p a = Err InvalidArgument.
Proof.
  intros p a H. unfold poly_serialize, mserialize_vector, max_num_coeffs. rewrite Z.gtb_ltb.
  destruct (Z.ltb_spec (2 ^ 15) (Z.of_nat (length a))); [reflexivity|].
  destruct H as [->|H']; [reflexivity|lia].
Qed.

Example C20_example : Forall (stored p97) a8 /\
  match poly_serialize p97 a8 with Ok s => poly_deserialize p97 s = Ok a8 /\ length (sp_coeffs s) = 7%nat | _ => False end.
Proof.
  split; [exact (proj2 (proj1 C18_example))|]. vm_compute. split; reflexivity.
Qed.

Print Assumptions C18_mul.
Print Assumptions C18_fused_mul_add.
Print Assumptions C19_substitute.
Print Assumptions C20_serialize.
Print Assumptions C20_deserialize_total.
