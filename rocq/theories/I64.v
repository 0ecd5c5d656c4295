(** * The library's 64-bit integers and calls through function numbers:
    /repo/tiny/src/std.c:736-769, 1107-1119 *)
From Verif Require Import Base Values Lexer Heap Code VM Std.
Local Open Scope Z_scope.

(** [(void * )(intptr_t)i]: pointers are numbers from 0 to 2^64 - 1 *)
Definition ptr_of (z : Z) : Z := z mod 2^64.
(** [(int64_t)(intptr_t)p] *)
Definition of_ptr (a : Z) : Z := (a + 2^63) mod 2^64 - 2^63.
Definition in_int64 (z : Z) : bool := (- 2^63 <=? z) && (z <? 2^63).

Section I64.
Context {H : Type}.

(** tiny.c:181-186 [Tiny_ToAddr]; NULL is 0 *)
Definition with_addr (v : value) (k : Z -> fprog H) : fprog H :=
  match v with
  | VLight a => k a
  | VNative _ => FObj v (fun b => match b with BNative a _ => k a | _ => FUB end)
  | _ => k 0
  end.

(** std.c:736-741 [Lib_IntToI64]; Tiny_NewLightNative (tiny.c:319-326) allocates
    nothing *)
Definition std_int_to_i64 (args : list value) : fprog H :=
  arg args 0 (fun v => FRet (VLight (ptr_of (to_int v)))).

(** [acc op= ..] over the remaining arguments; signed overflow is undefined *)
Fixpoint i64_fold (op : Z -> Z -> Z) (acc : Z) (args : list value) : fprog H :=
  match args with
  | [] => FRet (VLight (ptr_of acc))
  | v :: rest => with_addr v (fun a => let r := op acc (of_ptr a) in if in_int64 r then i64_fold op r rest else FUB)
  end.

(** std.c:743-751 [Lib_I64AddMany] *)
Definition std_i64_add_many (args : list value) : fprog H :=
  arg args 0 (fun v => with_addr v (fun a => i64_fold Z.add (of_ptr a) (tl args))).
(** std.c:753-761 [Lib_I64MulMany] *)
Definition std_i64_mul_many (args : list value) : fprog H :=
  arg args 0 (fun v => with_addr v (fun a => i64_fold Z.mul (of_ptr a) (tl args))).
(** std.c:763-769 [Lib_I64ToString]; at most 20 characters, so the buffer of 32
    never cuts them *)
Definition std_i64_to_string (args : list value) : fprog H :=
  arg args 0 (fun v => with_addr v (fun a => FNewStr (firstn 31 (dec_text (of_ptr a))) FRet)).

(** std.c:1107-1112 [GetFunctionIndex]; [index] is Tiny_GetFunctionIndex of the
    thread's state (Host.v), which compares up to the first NUL; strcmp with NULL
    is undefined *)
Variable index : text -> Z.
Definition std_get_function_index (args : list value) : fprog H :=
  if (length args =? 1)%nat
  then arg args 0 (fun v => with_chars v (fun o => match o with Some s => FRet (new_int (index (until_nul s))) | None => FUB end))
  else FAbort.
(** std.c:1114-1119 [CallFunction] *)
Definition std_call_function (args : list value) : fprog H :=
  match args with
  | [] => FAbort
  | v :: rest => FCall (wrap32 (to_int v)) rest FRet
  end.
End I64.
