(** C80: the operand of an in-place method may be the object itself. *)
From Verif Require Import Base Montgomery MontBatch Ntt Poly PolyExt SymEnc Prng Sampling SampleSpec ThmSymEnc RnsPoly RnsSpec RnsExample RnsCt InPlace InPlaceSpec InPlaceProofs Alias AliasSpec
  AliasProofs AliasProofs2 AliasProofs3.
Local Open Scope Z_scope.

(** ** Vectors: a, b and c are any addresses, equal or not *)
Theorem C80_vectors :
  forall p s a b c u ub, (a < length s)%nat ->
  let at_a := fun s : store => nth a s [] in
  same_as_by_value at_a [a] s (mem_add p a b s) (checked (at_a s) (batch_add p (nth a s []) (nth b s []))) /\
  same_as_by_value at_a [a] s (mem_sub p a b s) (checked (at_a s) (batch_sub p (nth a s []) (nth b s []))) /\
  same_as_by_value at_a [a] s (mem_mul p a b s) (checked (at_a s) (batch_mul p (nth a s []) (nth b s []))) /\
  same_as_by_value at_a [a] s (mem_fused p a b c s) (checked (at_a s) (batch_fused_mul_add p (nth a s []) (nth b s []) (nth c s []))) /\
  same_as_by_value at_a [a] s (mem_fused_constant p u ub a b s) (checked (at_a s) (batch_fused_mul_constant_add p (nth a s []) (nth b s []) u ub)).
Proof.
  intros p s a b c u ub Ha. cbv zeta. repeat split;
    first [apply (add_ok p s a b Ha)|apply (sub_ok p s a b Ha)|apply (mul_ok p s a b Ha)|apply (fused_ok p s a b c Ha)|apply (fused_constant_ok p s a b Ha)]; assumption.
Qed.

(** ** RNS polynomials: each operand is x itself or shares nothing with it *)
Theorem C80_polynomials :
  forall ms s x y z, stored s (ro_rows x) -> stored s (ro_rows y) -> stored s (ro_rows z) ->
  y = x \/ apart (ro_rows x) (ro_rows y) -> z = x \/ apart (ro_rows x) (ro_rows z) ->
  let at_x := fun s => poly_at s x in
  same_as_by_value at_x (ro_rows x) s (mem_rns_add ms x y s) (ip_rns_add (poly_at s x) (poly_at s y) ms) /\
  same_as_by_value at_x (ro_rows x) s (mem_rns_sub ms x y s) (ip_rns_sub (poly_at s x) (poly_at s y) ms) /\
  same_as_by_value at_x (ro_rows x) s (mem_rns_mul ms x y s) (ip_rns_mul (poly_at s x) (poly_at s y) ms) /\
  same_as_by_value at_x (ro_rows x) s (mem_rns_fused ms x y z s) (ip_rns_fused (poly_at s x) (poly_at s y) (poly_at s z) ms).
Proof.
  intros ms s x y z [Nx Ix] [Ny Iy] [Nz Iz] Y Z. cbv zeta.
  assert (BY : no_back (ro_rows x) (ro_rows y)) by (apply no_back_of; [exact Nx|]; destruct Y as [->|Y]; [now left|now right]).
  assert (BZ : no_back (ro_rows x) (ro_rows z)) by (apply no_back_of; [exact Nx|]; destruct Z as [->|Z]; [now left|now right]).
  split; [now apply rns_add_ok|]. split; [now apply rns_sub_ok|]. split; [now apply rns_mul_ok|]. now apply rns_fused_ok.
Qed.

(** ** RNS ciphertexts: the ciphertext operand is x itself or shares nothing with
    it; the plaintext shares nothing with it *)
Theorem C80_rns_ciphertexts :
  forall s x y b, stored s (rcells x) -> stored s (rcells y) -> stored s (ro_rows b) ->
  y = x \/ apart (rcells x) (rcells y) -> apart (rcells x) (ro_rows b) ->
  let at_x := fun s => rct_at s x in
  same_as_by_value at_x (rcells x) s (mem_rct_add x y s) (ip_rct_add (rct_at s x) (rct_at s y)) /\
  same_as_by_value at_x (rcells x) s (mem_rct_sub x y s) (ip_rct_sub (rct_at s x) (rct_at s y)) /\
  same_as_by_value at_x (rcells x) s (mem_rct_fused x y b s) (ip_rct_fused (rct_at s x) (rct_at s y) (poly_at s b)) /\
  same_as_by_value at_x (rcells x) s (mem_rct_absorb x b s) (ip_rct_absorb (rct_at s x) (poly_at s b)).
Proof.
  intros s x y b [Nx Ix] [Ny Iy] [Nb Ib] Y B. cbv zeta.
  split; [now apply rct_add_ok|]. split; [now apply rct_sub_ok|]. split; [now apply rct_fused_ok|]. now apply rct_absorb_ok.
Qed.

(** ** Ciphertexts with one modulus *)
Theorem C80_single_ciphertexts :
  forall s x y b c, stored s (co_c x) -> stored s (co_c y) -> (b < length s)%nat -> ~ In b (co_c x) ->
  y = x \/ apart (co_c x) (co_c y) ->
  let at_x := fun s => ct_at s x in
  same_ct_as_by_value x s (mem_ct_add x y s) (ip_ct_add (ct_at s x) (ct_at s y)) /\
  same_ct_as_by_value x s (mem_ct_sub x y s) (ip_ct_sub (ct_at s x) (ct_at s y)) /\
  same_as_by_value at_x (co_c x) s (mem_ct_absorb x b s) (ip_ct_absorb (ct_at s x) (nth b s [])) /\
  ((length (co_c y) <= length (co_c x))%nat ->
   same_as_by_value at_x (co_c x) s (mem_ct_fused x y b s) (ip_ct_fused (ct_at s x) (ct_at s y) (nth b s [])) /\
   same_as_by_value at_x (co_c x) s (mem_ct_fused_constant x y c s) (ip_ct_fused_constant (ct_at s x) (ct_at s y) c)).
Proof.
  intros s x y b c [Nx Ix] [Ny Iy] Hb Nb Y. cbv zeta.
  assert (S : self_or_apart (co_c x) (co_c y)) by (destruct Y as [->|Y]; [now left|now right]).
  split; [now apply ct_add_ok|]. split; [now apply ct_sub_ok|]. split; [now apply ct_absorb_ok|].
  intros L. split; [apply (ct_fused_ok s x y Nx Ix Iy S b Hb Nb L)|now apply ct_fused_constant_ok].
Qed.

(** ** What this means for x.AddInPlace(x) and its like: on success x holds what
    the copying method returns for two separate copies *)
Theorem C80_self :
  forall s x, stored s (rcells x) ->
  (forall z, rct_add (rct_at s x) (rct_at s x) = Ok z -> fst (mem_rct_add x x s) = Ok tt /\ rct_at (snd (mem_rct_add x x s)) x = z) /\
  (forall z, rct_sub (rct_at s x) (rct_at s x) = Ok z -> fst (mem_rct_sub x x s) = Ok tt /\ rct_at (snd (mem_rct_sub x x s)) x = z) /\
  (forall b z, stored s (ro_rows b) -> apart (rcells x) (ro_rows b) -> rct_fused (rct_at s x) (rct_at s x) (poly_at s b) = Ok z ->
     fst (mem_rct_fused x x b s) = Ok tt /\ rct_at (snd (mem_rct_fused x x b s)) x = z).
Proof.
  intros s x H. pose proof H as [N I]. assert (K : forall (call : effect store) r e (z : rct), agrees e r -> same_as_by_value (fun s => rct_at s x) (rcells x) s call e -> r = Ok z ->
    fst call = Ok tt /\ rct_at (snd call) x = z).
  { intros call r e z A [E F] ->. cbn in A. subst e. cbn [fst snd] in *. split; [exact E|]. apply F. rewrite E. intros Q. discriminate Q. }
  split; [|split].
  - intros z E. eapply K; [apply ag_rct_add|apply rct_add_ok; auto|exact E].
  - intros z E. eapply K; [apply ag_rct_sub|apply rct_sub_ok; auto|exact E].
  - intros b z [Nb Ib] B E. eapply K; [apply ag_rct_fused|apply rct_fused_ok; auto|exact E].
Qed.

(** ** A scalar passed by reference *)

(** an element y of another vector *)
Theorem C80_scalar :
  forall p s a b j y, (a < length s)%nat -> a <> b -> nth_error (nth b s []) j = Some y ->
  let at_a := fun s : store => nth a s [] in
  same_as_by_value at_a [a] s (mem_add_ref p a b j s) (checked (at_a s) (batch_add_scalar p (nth a s []) y)) /\
  same_as_by_value at_a [a] s (mem_sub_ref p a b j s) (checked (at_a s) (batch_sub_scalar p (nth a s []) y)) /\
  same_as_by_value at_a [a] s (mem_mul_ref p a b j s) (checked (at_a s) (batch_mul_scalar p (nth a s []) y)).
Proof.
  intros p s a b j y Ha NE Hy. cbv zeta. split; [exact (ref_apart s a b Ha j (madd p) y Hy NE)|]. split; [exact (ref_apart s a b Ha j (msub p) y Hy NE)|].
  exact (ref_apart s a b Ha j (mmul p) y Hy NE).
Qed.

(** an element y of the vector itself: the elements after it are combined with
    what y has become, and the call reports success. *)
Theorem C80_scalar_refuted :
  forall p s a j y, (a < length s)%nat -> nth_error (nth a s []) j = Some y ->
  let v := nth a s [] in
  let wrong f := (Ok tt, upd s a (map (fun x => f x y) (firstn (S j) v) ++ map (fun x => f x (f y y)) (skipn (S j) v))) in
  mem_add_ref p a a j s = wrong (madd p) /\ mem_sub_ref p a a j s = wrong (msub p) /\ mem_mul_ref p a a j s = wrong (mmul p).
Proof.
  intros p s a j y Ha Hy. cbv zeta. split; [exact (ref_self s a a Ha j (madd p) y Hy eq_refl)|]. split; [exact (ref_self s a a Ha j (msub p) y Hy eq_refl)|].
  exact (ref_self s a a Ha j (mmul p) y Hy eq_refl).
Qed.

(** ** Examples *)

(** a ciphertext modulo 97, 193, 17 of two components, and a plaintext *)
Definition al_store : store := [repeat 1 8; repeat 2 8; repeat 3 8; repeat 4 8; repeat 5 8; repeat 6 8; repeat 7 8; repeat 8 8; repeat 9 8].
Definition al_x : rcobj := {| rco_c := [{| ro_logn := 3; ro_rows := [0; 1; 2]%nat; ro_ntt := true |}; {| ro_logn := 3; ro_rows := [3; 4; 5]%nat; ro_ntt := true |}];
  rco_ms := ex_qs; rco_pow := 1 |}.
Definition al_b : robj := {| ro_logn := 3; ro_rows := [6; 7; 8]%nat; ro_ntt := true |}.

Example C80_example :
  stored al_store (rcells al_x) /\ stored al_store (ro_rows al_b) /\ apart (rcells al_x) (ro_rows al_b) /\
  fst (mem_rct_add al_x al_x al_store) = Ok tt /\ map (map (hd 0)) (map rp_vs (rt_c (rct_at (snd (mem_rct_add al_x al_x al_store)) al_x))) = [[2; 4; 6]; [8; 10; 12]] /\
  fst (mem_rct_fused al_x al_x al_b al_store) = Ok tt /\ skipn 6 (snd (mem_rct_fused al_x al_x al_b al_store)) = skipn 6 al_store /\
  fst (mem_rns_mul ex_qs al_b al_b al_store) = Ok tt /\ poly_at (snd (mem_rns_mul ex_qs al_b al_b al_store)) al_b <> poly_at al_store al_b.
Proof.
  split; [split; [cbn; repeat (constructor; [cbn; lia|]); constructor|cbn; repeat constructor]|].
  split; [split; [cbn; repeat (constructor; [cbn; lia|]); constructor|cbn; repeat constructor]|].
  split; [intros a Ha Hb; cbn in Ha, Hb; lia|].
  do 5 (split; [vm_compute; reflexivity|]). vm_compute. intros Q. discriminate Q.
Qed.

(** ciphertexts with one modulus: x.AddInPlace(x) decrypts to the double *)
Definition al_p : mparams := Eval vm_compute in ct_p (enc97 m8 99).
Definition al_ct : store := Eval vm_compute in ct_c (enc97 m8 99).
Definition al_y : cobj := {| co_c := [0; 1]%nat; co_pow := 1; co_p := al_p |}.
Example C80_example_single :
  stored al_ct (co_c al_y) /\ ct_c (ct_at al_ct al_y) = ct_c (enc97 m8 99) /\ decrypt key97 (ct_at al_ct al_y) = Ok [0; 1; 2; 2; 1; 0; 0; 1] /\
  fst (mem_ct_add al_y al_y al_ct) = Ok tt /\
  decrypt key97 (ct_at (fst (snd (mem_ct_add al_y al_y al_ct))) al_y) = Ok [0; 2; 1; 1; 2; 0; 0; 2].
Proof.
  split; [split; [cbn; repeat (constructor; [cbn; lia|]); constructor|]|].
  { assert (L : length al_ct = 2%nat) by (vm_compute; reflexivity). rewrite L. repeat constructor. }
  do 3 (split; [vm_compute; reflexivity|]). vm_compute. reflexivity.
Qed.

(** p.MulInPlace(p.Coeffs()[0]) modulo 97 for p = (5, 5, 5, 5): the first
    coefficient becomes 25, the others 28 = 125 mod 97 *)
Definition al_five : store := [map (import_int al_p) [5; 5; 5; 5]].
Example C80_example_scalar :
  nth_error (nth 0 al_five []) 0 = Some (import_int al_p 5) /\
  rmap (map (export_int al_p)) (batch_mul_scalar al_p (nth 0 al_five []) (import_int al_p 5)) = Ok [25; 25; 25; 25] /\
  fst (mem_mul_ref al_p 0 0 0 al_five) = Ok tt /\
  map (export_int al_p) (nth 0 (snd (mem_mul_ref al_p 0 0 0 al_five)) []) = [25; 28; 28; 28].
Proof. repeat (split; [vm_compute; reflexivity|]). vm_compute. reflexivity. Qed.

Print Assumptions C80_vectors.
Print Assumptions C80_polynomials.
Print Assumptions C80_rns_ciphertexts.
Print Assumptions C80_single_ciphertexts.
Print Assumptions C80_self.
Print Assumptions C80_scalar.
Print Assumptions C80_scalar_refuted.
