(** * The disassembler: /repo/tiny/src/tiny.c:4116-4371 [Tiny_DisasmOne]

    The model returns the mnemonic and the operands instead of the formatted
    line (a buffer too small for the text, and the text itself, are left out)
    and the new [*ppc].  [None] = the function returns false. *)
From Verif Require Import Base Code.
Local Open Scope Z_scope.

Definition disasm_one (p : program) (strings : list text) (fpcs : list Z) (pc : Z)
  : outcome (option (string * list Z * Z)) :=
  if (pc <? 0) || (plen p <=? pc) then Ok None
  else
    let finish (name : string) (args : list Z) (pc' : Z) :=
      Ok (Some (name, args, if plen p <=? pc' then -1 else pc')) in
    let plain (name : string) := finish name [] (pc + 1) in
    let byte (name : string) :=
      match byte_at p (pc + 1) with Ok b => finish name [b] (pc + 2) | _ => UB end in
    let idx (name : string) :=
      match read_value_at 4 4 p (pc + 1) with Ok (v, pc') => finish name [v] pc' | _ => UB end in
    let str (b : Z) (k : outcome (option (string * list Z * Z))) :=
      match nth_error strings (Z.to_nat b) with Some _ => k | None => UB end in
    match byte_at p pc with
    | Ok 0 => plain "PUSH_NULL"%string
    | Ok 1 => byte "PUSH_NULL_N"%string
    | Ok 2 => plain "PUSH_TRUE"%string
    | Ok 3 => plain "PUSH_FALSE"%string
    | Ok 5 => plain "PUSH_0"%string
    | Ok 6 => plain "PUSH_1"%string
    | Ok 7 => byte "PUSH_CHAR"%string
    | Ok 4 => match read_value_at 8 8 p (pc + 1) with
              | Ok (v, pc') => finish "PUSH_INT"%string [to_signed64 v] pc' | _ => UB end
    | Ok 8 => match read_value_at 8 8 p (pc + 1) with
              | Ok (v, pc') => finish "PUSH_FLOAT"%string [v] pc' | _ => UB end
    | Ok 9 => match read_value_at 4 4 p (pc + 1) with   (* Tiny_ConstantIndex, not Tiny_Int *)
              | Ok (v, pc') => str v (finish "PUSH_STRING"%string [v] pc') | _ => UB end
    | Ok 10 => match byte_at p (pc + 1) with
               | Ok b => str b (finish "PUSH_STRING_FF"%string [b] (pc + 2)) | _ => UB end
    | Ok 11 => match byte_at p (pc + 1) with
               | Ok b => oassert (0 <? b) (finish "PUSH_STRUCT"%string [b] (pc + 2)) | _ => UB end
    | Ok 12 => byte "STRUCT_GET"%string
    | Ok 13 => byte "STRUCT_SET"%string
    | Ok 14 => plain "ADD"%string
    | Ok 15 => plain "SUB"%string
    | Ok 16 => plain "MUL"%string
    | Ok 17 => plain "DIV"%string
    | Ok 18 => plain "MOD"%string
    | Ok 19 => plain "OR"%string
    | Ok 20 => plain "AND"%string
    | Ok 23 => plain "LT"%string
    | Ok 24 => plain "LTE"%string
    | Ok 25 => plain "GT"%string
    | Ok 26 => plain "GTE"%string
    | Ok 27 => plain "ADD1"%string
    | Ok 28 => plain "SUB1"%string
    | Ok 29 => plain "EQU"%string
    | Ok 30 => plain "LOG_NOT"%string
    | Ok 31 => idx "SET"%string
    | Ok 32 => idx "GET"%string
    | Ok 33 => idx "GOTO"%string
    | Ok 34 => idx "GOTOZ"%string
    | Ok 35 => match byte_at p (pc + 1) with
               | Ok n => match read_value_at 4 4 p (pc + 2) with
                         | Ok (v, pc') =>
                             match nth_error fpcs (Z.to_nat v) with
                             | Some _ => finish "CALL"%string [n; v] pc'
                             | None => UB
                             end
                         | _ => UB end
               | _ => UB end
    | Ok 36 => plain "RETURN"%string
    | Ok 37 => plain "RETURN_VALUE"%string
    | Ok 38 => match byte_at p (pc + 1) with
               | Ok n => match read_value_at 4 4 p (pc + 2) with
                         | Ok (v, pc') => finish "CALLF"%string [n; v] pc'
                         | _ => UB end
               | _ => UB end
    | Ok 39 => idx "GETLOCAL"%string
    | Ok 40 => byte "GETLOCAL_W"%string
    | Ok 41 => idx "SETLOCAL"%string
    | Ok 42 => plain "GET_RETVAL"%string
    | Ok 43 => plain "HALT"%string
    | Ok 44 => plain "MISALIGNED_INSTRUCTION"%string
    | Ok _ => Ok None
    | _ => UB
    end.
