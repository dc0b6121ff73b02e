(** A small example: degree 8, main primes 97, 193, 17, auxiliary primes 113, 241. *)
From Coq Require Import Znumtheory.
From Verif Require Import Base Montgomery MontBatch Ntt PrimeCheck Spec NttFacts RnsPoly RnsSpec RnsCtx RnsCtxProofs.

Definition made (qs : list Z) : list pmod := match seqr (map (make_modulus 32 3) qs) with Ok l => l | _ => [] end.
Definition ex_qs : list pmod := Eval vm_compute in made [97; 193; 17].
Definition ex_ps : list pmod := Eval vm_compute in made [113; 241].

Lemma ex_primes : Forall prime [97; 193; 17] /\ Forall prime [113; 241].
Proof.
  split; repeat (apply Forall_cons; [apply (prime_by_trial _ 20); [lia|vm_compute; reflexivity]|]); apply Forall_nil.
Qed.

Lemma ex_ok : moduli_ok 32 3 ex_qs /\ moduli ex_qs = [97; 193; 17] /\ moduli_ok 32 3 ex_ps /\ moduli ex_ps = [113; 241].
Proof.
  destruct ex_primes as [P1 P2].
  assert (W : word_size 32) by (right; left; reflexivity).
  destruct (make_moduli 32 3 _ W P1 ex_qs) as [A B]; [vm_compute; reflexivity|].
  destruct (make_moduli 32 3 _ W P2 ex_ps) as [C D]; [vm_compute; reflexivity|]. auto.
Qed.

Lemma ex_distinct : distinct (ex_qs ++ ex_ps) /\ distinct ex_qs /\ distinct ex_ps.
Proof.
  destruct ex_ok as (_ & B & _ & D). unfold distinct, moduli in *. rewrite map_app, B, D.
  split; [|split]; repeat constructor; cbn; lia.
Qed.

(** a polynomial given by non-negative coefficients, in NTT form *)
Definition ex_poly (ms : list pmod) (f : list Z) : result rpoly :=
  rns_to_ntt {| rp_logn := 3; rp_vs := map (fun m => map (fun c => import_int (pm_p m) (c mod modulus m)) f) ms; rp_ntt := false |} ms.

(** the residues of the coefficients *)
Definition ex_view (ms : list pmod) (r : result rpoly) : result (list (list Z)) :=
  do! a <- r; do! a <- (if rp_ntt a then rns_to_coeff a ms else Ok a);
  Ok (map2 (fun m v => map (export_int (pm_p m)) v) ms (rp_vs a)).

Definition res (ms : list pmod) (f : list Z) : result (list (list Z)) := Ok (map (fun m => map (fun c => c mod modulus m) f) ms).
