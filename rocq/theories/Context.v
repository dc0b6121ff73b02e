(** Model of context.h (RlweContext) and of the checks of error_params.h. The
    error bounds held by ErrorParams are modelled in ErrorEst.v. *)
From Verif Require Import Base Montgomery Ntt RnsPoly SymEnc.

(** context.h lines 47-49: the implicit conversion of a size_t argument to an int parameter *)
Definition to_int (x : Z) : Z := let y := x mod 2 ^ 32 in if y <? 2 ^ 31 then y else y - 2 ^ 32.

(** constants.h line 67 *)
Definition max_variance : Z := 256.

(** error_params.h lines 39-57 and 122-126: ErrorParams::Create; the result is the
    member t_ = (One() << log_t) + One(). *)
Definition error_params_create (p : mparams) (log_t variance : Z) : result Z :=
  if log_t >? p_logm p - 1 then Err InvalidArgument
  else if log_t <=? 0 then Err InvalidArgument
  else if variance >? max_variance then Err InvalidArgument
  else t_word p log_t.

(** context.h lines 45-50: Parameters; log_n, log_t and variance are size_t. *)
Record ctx_params := { cp_modulus : Z; cp_log_n : Z; cp_log_t : Z; cp_variance : Z }.

(** context.h lines 124-127: members. Of error_parameters_ only t_ is kept. *)
Record rlwe_ctx := { cx_p : mparams; cx_np : nttp; cx_err_t : Z; cx_params : ctx_params }.

(** context.h lines 53-77: Create. log_n and log_t are converted to int. *)
Definition rlwe_ctx_create (k : Z) (c : ctx_params) : result rlwe_ctx :=
  do! p <- params_create k (cp_modulus c);
  do! np <- init_ntt p (to_int (cp_log_n c));
  do! t <- error_params_create p (to_int (cp_log_t c)) (cp_variance c);
  Ok {| cx_p := p; cx_np := np; cx_err_t := t; cx_params := c |}.

(** context.h lines 105-112: getters. GetN shifts an int; GetT shifts an Int by the size_t
    log_t. *)
Definition get_n (c : rlwe_ctx) : result nat := shl_int (cp_log_n (cx_params c)).
Definition get_t (c : rlwe_ctx) : result Z := t_word (cx_p c) (cp_log_t (cx_params c)).

(** context.h lines 87-93: CanModulusSwitchTo. *)
Definition can_switch_to (c : rlwe_ctx) (modulus : Z) : result unit :=
  do! t <- get_t c;
  if t =? 0 then UB
  else if negb (cp_modulus (cx_params c) mod t =? modulus mod t) then Err InvalidArgument
  else Ok tt.
