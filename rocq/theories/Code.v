(** * The instruction stream: emitting, patching and reading operands

    /repo/tiny/src/tiny.c:649-690 ([GenerateCode], [GEN_VALUE], [GEN_VALUE_AT])
    and tiny.c:1098-1131 ([READ_VALUE_AT] and its three users).

    A program is the list of its bytes ([Word] is uint8_t, detail.h:10), each
    in 0..255.  Positions are C [int]s; the model keeps them as [Z] and does not
    wrap them (a program of 2 GiB is out of scope). *)
From Verif Require Import Base.
Local Open Scope Z_scope.

Definition program := list Z.

Definition plen (p : program) : Z := Z.of_nat (length p).

(** Little-endian bytes of the low [n] bytes of [z] (the object representation
    that the [Word] pointer [wp] walks over, tiny.c:666-669). *)
Fixpoint le_bytes (n : nat) (z : Z) : list Z :=
  match n with
  | O => []
  | S n' => z mod 256 :: le_bytes n' (z / 256)
  end.

Fixpoint le_val (bs : list Z) : Z :=
  match bs with
  | [] => 0
  | b :: bs' => b + 256 * le_val bs'
  end.

(** [(count + align_minus_one) & ~align_minus_one], tiny.c:659-661 and 1103-1104. *)
Definition align_up (pos align : Z) : Z :=
  Z.land (pos + (align - 1)) (Z.lnot (align - 1)).

(** TINY_OP_MISALIGNED_INSTRUCTION, the padding byte (tiny.c:663). *)
Definition op_misaligned : Z := 44.

(** tiny.c:649-651 [GenerateCode] *)
Definition gen_code (p : program) (b : Z) : program := p ++ [b].

(** tiny.c:657-670 [GEN_VALUE]: the new program and the position of the value *)
Definition gen_value (size : nat) (align : Z) (v : Z) (p : program) : program * Z :=
  let padded := align_up (plen p) align in
  let p1 := p ++ repeat op_misaligned (Z.to_nat (padded - plen p)) in
  (p1 ++ le_bytes size v, plen p1).

(** tiny.c:683-690 [GEN_VALUE_AT]: store inside the existing program. *)
Fixpoint put_bytes (p : program) (pos : nat) (bs : list Z) : outcome program :=
  match bs with
  | [] => Ok p
  | b :: bs' =>
      if (pos <? length p)%nat then put_bytes (update p pos b) (S pos) bs' else UB
  end.

Definition gen_value_at (size : nat) (align : Z) (v : Z) (pc : Z) (p : program)
  : outcome program :=
  oassert (Z.rem pc align =? 0)
    (orequire (0 <=? pc) (put_bytes p (Z.to_nat pc) (le_bytes size v))).

(** One byte of the program; outside of it the read is undefined. *)
Definition byte_at (p : program) (pc : Z) : outcome Z :=
  if pc <? 0 then UB else of_option (nth_error p (Z.to_nat pc)).

Fixpoint bytes_at (p : program) (pc : Z) (n : nat) : outcome (list Z) :=
  match n with
  | O => Ok []
  | S n' =>
      match byte_at p pc with
      | Ok b => match bytes_at p (pc + 1) n' with
                | Ok bs => Ok (b :: bs)
                | r => r
                end
      | _ => UB
      end
  end.

(** tiny.c:1101-1107 [READ_VALUE_AT]: align, read, advance. *)
Definition read_value_at (size : nat) (align : Z) (p : program) (pc : Z) : outcome (Z * Z) :=
  let pc1 := align_up pc align in
  match bytes_at p pc1 size with
  | Ok bs => Ok (le_val bs, pc1 + Z.of_nat size)
  | _ => UB
  end.

(** Reinterpretation of 8 bytes as int64_t, of 4 as int32_t. *)
Definition to_signed64 (z : Z) : Z := if z <? 2^63 then z else z - 2^64.
Definition to_signed32 (z : Z) : Z := if z <? 2^31 then z else z - 2^32.

(** Instructions with the operands the VM reads for them
    (/repo/tiny/include/opcodes.h and tiny.c:1163-1430). *)
Inductive binop := OAdd | OSub | OMul | ODiv | OMod | OOr | OAnd | OShl | OShr
                 | OLt | OLte | OGt | OGte.

Inductive instr :=
| IPushNull | IPushNullN (n : Z) | IPushTrue | IPushFalse
| IPushInt (i : Z) | IPush0 | IPush1 | IPushChar (b : Z) | IPushFloat (bits : Z)
| IPushString (i : Z) | IPushStringFF (i : Z)
| IPushStruct (n : Z) | IStructGet (i : Z) | IStructSet (i : Z)
| IBin (o : binop) | IAdd1 | ISub1 | IEqu | INot
| ISet (i : Z) | IGet (i : Z) | IGoto (t : Z) | IGotoz (t : Z)
| ICall (nargs f : Z) | IReturn | IReturnValue | ICallF (nargs f : Z)
| IGetLocal (i : Z) | IGetLocalW (i : Z) | ISetLocal (i : Z) | IGetRetval | IHalt.

(** opcodes.h:3-70, the numbering of the enum *)
Definition binop_code (o : binop) : Z :=
  match o with
  | OAdd => 14 | OSub => 15 | OMul => 16 | ODiv => 17 | OMod => 18 | OOr => 19 | OAnd => 20
  | OShl => 21 | OShr => 22 | OLt => 23 | OLte => 24 | OGt => 25 | OGte => 26
  end.

(** What the VM fetches at [pc]: the instruction and the pc after its operands
    (the operand reads of each [case] in tiny.c:1171-1420).  Opcode 44 and any
    unknown opcode fail an assert (tiny.c:1425-1431). *)
Definition decode (p : program) (pc : Z) : outcome (instr * Z) :=
  match byte_at p pc with
  | Ok op =>
      let plain i := Ok (i, pc + 1) in
      let byte k := match byte_at p (pc + 1) with
                    | Ok b => Ok (k b, pc + 2) | _ => UB end in
      let idx k := match read_value_at 4 4 p (pc + 1) with
                   | Ok (v, pc') => Ok (k v, pc') | _ => UB end in
      let wide k := match read_value_at 8 8 p (pc + 1) with
                    | Ok (v, pc') => Ok (k v, pc') | _ => UB end in
      let call k := match byte_at p (pc + 1) with
                    | Ok n => match read_value_at 4 4 p (pc + 2) with
                              | Ok (v, pc') => Ok (k n v, pc') | _ => UB end
                    | _ => UB end in
      match op with
      | 0 => plain IPushNull
      | 1 => byte IPushNullN
      | 2 => plain IPushTrue
      | 3 => plain IPushFalse
      | 4 => wide (fun z => IPushInt (to_signed64 z))
      | 5 => plain IPush0
      | 6 => plain IPush1
      | 7 => byte IPushChar
      | 8 => wide IPushFloat
      | 9 => wide (fun z => IPushString (to_signed64 z))
      | 10 => byte IPushStringFF
      | 11 => byte IPushStruct
      | 12 => byte IStructGet
      | 13 => byte IStructSet
      | 14 => plain (IBin OAdd)
      | 15 => plain (IBin OSub)
      | 16 => plain (IBin OMul)
      | 17 => plain (IBin ODiv)
      | 18 => plain (IBin OMod)
      | 19 => plain (IBin OOr)
      | 20 => plain (IBin OAnd)
      | 21 => plain (IBin OShl)
      | 22 => plain (IBin OShr)
      | 23 => plain (IBin OLt)
      | 24 => plain (IBin OLte)
      | 25 => plain (IBin OGt)
      | 26 => plain (IBin OGte)
      | 27 => plain IAdd1
      | 28 => plain ISub1
      | 29 => plain IEqu
      | 30 => plain INot
      | 31 => idx ISet
      | 32 => idx IGet
      | 33 => idx IGoto
      | 34 => idx IGotoz
      | 35 => call ICall
      | 36 => plain IReturn
      | 37 => plain IReturnValue
      | 38 => call ICallF
      | 39 => idx IGetLocal
      | 40 => byte IGetLocalW
      | 41 => idx ISetLocal
      | 42 => plain IGetRetval
      | 43 => plain IHalt
      | _ => Abort
      end
  | Abort => Abort
  | UB => UB
  | Fuel => Fuel
  end.

(** What the code generator emits for an instruction (the [GenerateCode] /
    [GEN_VALUE_NOPOS] sequences of tiny.c:3039-3083, 3085-3106 and of
    [CompileExpr] / [CompileStatement]). *)
Definition gen_instr (p : program) (i : instr) : program :=
  let idx op v := fst (gen_value 4 4 v (gen_code p op)) in
  let wide op v := fst (gen_value 8 8 v (gen_code p op)) in
  let call op n v := fst (gen_value 4 4 v (gen_code (gen_code p op) n)) in
  match i with
  | IPushNull => gen_code p 0
  | IPushNullN n => gen_code (gen_code p 1) n
  | IPushTrue => gen_code p 2
  | IPushFalse => gen_code p 3
  | IPushInt z => wide 4 z
  | IPush0 => gen_code p 5
  | IPush1 => gen_code p 6
  | IPushChar b => gen_code (gen_code p 7) b
  | IPushFloat b => wide 8 b
  | IPushString z => idx 9 z
  | IPushStringFF z => gen_code (gen_code p 10) z
  | IPushStruct n => gen_code (gen_code p 11) n
  | IStructGet n => gen_code (gen_code p 12) n
  | IStructSet n => gen_code (gen_code p 13) n
  | IBin o => gen_code p (binop_code o)
  | IAdd1 => gen_code p 27
  | ISub1 => gen_code p 28
  | IEqu => gen_code p 29
  | INot => gen_code p 30
  | ISet v => idx 31 v
  | IGet v => idx 32 v
  | IGoto v => idx 33 v
  | IGotoz v => idx 34 v
  | ICall n v => call 35 n v
  | IReturn => gen_code p 36
  | IReturnValue => gen_code p 37
  | ICallF n v => call 38 n v
  | IGetLocal v => idx 39 v
  | IGetLocalW n => gen_code (gen_code p 40) n
  | ISetLocal v => idx 41 v
  | IGetRetval => gen_code p 42
  | IHalt => gen_code p 43
  end.
