(** Model of /repo/shell_encryption/transcription.h. *)
From Verif Require Import Base.

(** [int] arithmetic: a result outside 32-bit signed range is undefined. *)
Definition int32 (x : Z) : result Z :=
  if (- 2 ^ 31 <=? x) && (x <? 2 ^ 31) then Ok x else UB.

(** transcription.h lines 96-127: the inner while loop.
    [wi], [wo] are the bit sizes of InputInt and OutputInt.  The loop state is
    the output vector, the index of [output_ptr], [size_output_chunk],
    [number_output_bits_needed] and [number_bits_in_input].  The fuel is the
    number of bits in the chunk: each iteration consumes at least one bit;
    running out of fuel is reported as [UB]. *)
Fixpoint transcribe_chunk (fuel : nat) (wi wo obits remaining input : Z)
  (st : list Z * nat * Z * Z) (nbits : Z) : result (list Z * nat * Z * Z) :=
  let '(out, ptr, chunk, needed) := st in
  if nbits >? 0 then
    match fuel with
    | O => UB
    | S f =>
        let '(ptr, chunk, needed) :=
          if needed =? 0
          then let c := Z.min remaining obits in (S ptr, c, c)
          else (ptr, chunk, needed) in
        let np := Z.min nbits needed in
        let bits_left := wrap wi (input * 2 ^ (nbits - np)) in
        let mask := wrap wo (shr bits_left (wi - np)) in
        do! old <- get out ptr;
        let out := upd out ptr (Z.lor old (wrap wo (mask * 2 ^ (chunk - needed)))) in
        transcribe_chunk f wi wo obits remaining input
          (out, ptr, chunk, needed - np) (nbits - np)
    end
  else Ok st.

(** transcription.h lines 86-132: the outer loop over the first
    [input_chunks] elements. *)
Fixpoint transcribe_loop (wi wo ibits obits : Z) (input : list Z) (chunks : nat)
  (st : list Z * nat * Z * Z) (remaining : Z) {struct chunks} : result (list Z * nat * Z * Z) :=
  match chunks with
  | O => Ok st
  | S c =>
      match input with
      | [] => UB
      | x :: rest =>
          let nbits := Z.min ibits remaining in
          let inp := wrap wi (x * 2 ^ (wi - nbits)) in
          do! st' <- transcribe_chunk (Z.to_nat nbits) wi wo obits remaining inp st nbits;
          transcribe_loop wi wo ibits obits rest c st' (remaining - ibits)
      end
  end.

(** transcription.h lines 35-134.  [wi]/[wo]: sizeof(InputInt)*8 /
    sizeof(OutputInt)*8. A non-positive chunk size is undefined here: 0 divides
    by zero, and negative sizes are outside every caller. *)
Definition transcribe_bits (wi wo : Z) (input : list Z) (len ibits obits : Z)
  : result (list Z) :=
  if ibits >? wi then Err InvalidArgument
  else if obits >? wo then Err InvalidArgument
  else if len <? 0 then Err InvalidArgument
  else if len =? 0 then
    match input with [] => Ok [] | _ => Err InvalidArgument end
  else if (ibits <=? 0) || (obits <=? 0) then UB
  else
    do! ni <- int32 (len + ibits - 1);
    let chunks := ni / ibits in
    if Z.of_nat (length input) <? chunks then Err InvalidArgument
    else
      do! no <- int32 (len + (obits - 1));
      let output := repeat 0 (Z.to_nat (no / obits)) in
      let c := Z.min len obits in
      do! '(out, _, _, _) <- transcribe_loop wi wo ibits obits input (Z.to_nat chunks)
                               (output, O, c, c) len;
      Ok out.
