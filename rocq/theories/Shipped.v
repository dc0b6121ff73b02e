(** The constants of /repo/shell_encryption/constants.h and
    /repo/shell_encryption/rns/constants.h. *)
From Verif Require Import Base.

(** constants.h lines 33-35 *)
Definition kNewhopeModulus : Z := 12289.
Definition kNewhopeLogDegreeBound : Z := 10.

(** constants.h lines 38-41 *)
Definition kModulus59 : Z := 332366567264636929.
Definition kInvModulus59 : Z := 7124357790306815999.
Definition kLogDegreeBound59 : Z := 10.

(** constants.h lines 44-46 *)
Definition kModulus44 : Z := 17592169240577.
Definition kLogDegreeBound44 : Z := 10.

(** constants.h lines 51-56 *)
Definition kModulus29 : Z := 463187969.
Definition kLogDegreeBound29 : Z := 10.
Definition kModulus25 : Z := 33538049.
Definition kLogDegreeBound25 : Z := 10.

(** constants.h lines 60-63: MakeUint128(high, low) *)
Definition kModulus80 : Z := 35026 * 2 ^ 64 + 3764636248688824321.
Definition kLogDegreeBound80 : Z := 11.

(** constants.h lines 65-66 *)
Definition kMaxNumCoeffs : Z := 2 ^ 15.
Definition kMaxLogNumCoeffs : Z := 15.

(** rns/constants.h lines 33-37 *)
Definition k60BitModulusQ0 : Z := 974849.
Definition k60BitModulusQ1 : Z := 765953.
Definition k60BitModulusP0 : Z := 557057.
Definition k60BitModulusLogN : Z := 11.
Definition k60BitModulusPlaintextModulus : Z := 17.

(** rns/constants.h lines 40-43 *)
Definition k59BitModulusQ0 : Z := 536375297.
Definition k59BitModulusP0 : Z := 1073655809.
Definition k59BitModulusLogN : Z := 11.
Definition k59BitModulusPlaintextModulus : Z := 17.
