(** * What the instruction stream is for: operands survive the trip *)
From Verif Require Import Base Code.
Local Open Scope Z_scope.

(** The operands an instruction can carry: one byte, an unsigned 32-bit index,
    a signed 64-bit integer or a 64-bit float pattern. *)
Definition is_byte (z : Z) : Prop := 0 <= z < 256.
Definition is_index (z : Z) : Prop := 0 <= z < 2^32.

Definition codable (i : instr) : Prop :=
  match i with
  | IPushNullN n | IPushChar n | IPushStringFF n | IPushStruct n
  | IStructGet n | IStructSet n | IGetLocalW n => is_byte n
  | IPushInt z => - 2^63 <= z < 2^63
  | IPushFloat b => 0 <= b < 2^64
  | ISet v | IGet v | IGoto v | IGotoz v | IGetLocal v | ISetLocal v => is_index v
  | ICall n v | ICallF n v => is_byte n /\ is_index v
  | IPushString _ => False   (* see push_string_refuted *)
  | _ => True
  end.

(** The least position that is a multiple of [a] and not before [pos]. *)
Definition next_aligned (a pos r : Z) : Prop :=
  pos <= r /\ (a | r) /\ forall q, pos <= q -> (a | q) -> r <= q.
