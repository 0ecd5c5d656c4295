(** * Operand stack heights

    What each instruction takes from the operand stack, what it puts there, and
    where execution goes on within the same function. *)
From Verif Require Import Base Values Code Heap VM VMSpec Syntax Symbols Compile Layout.
Local Open Scope nat_scope.

Definition pops (i : instr) : nat :=
  match i with
  | IPushStruct n | ICall n _ | ICallF n _ => Z.to_nat n
  | IStructSet _ | IBin _ | IEqu => 2
  | IStructGet _ | IAdd1 | ISub1 | INot | ISet _ | IGotoz _ | IReturnValue | ISetLocal _ => 1
  | _ => 0
  end.
Definition pushes (i : instr) : nat :=
  match i with
  | IPushNullN n => Z.to_nat n
  | IStructSet _ | ISet _ | IGoto _ | IGotoz _ | ICall _ _ | ICallF _ _ | IReturn | IReturnValue | ISetLocal _ | IHalt => 0
  | _ => 1
  end.
Definition succs (i : instr) (next : Z) : list Z :=
  match i with
  | IGoto k => [to_signed32 k]
  | IGotoz k => [to_signed32 k; next]
  | IReturn | IReturnValue | IHalt => []
  | _ => [next]
  end.

(** [i] is the number of a Tiny function of the table. *)
Definition fun_number (t : tbl) (i : nat) : Prop :=
  exists y a l r, In y (tb_syms t) /\ sy_body y = SyFunc i a l r.

(** [i] is the number of a foreign function of the table which may be called
    with [n] arguments: as many as it has parameters, or more if it is variadic. *)
Definition foreign_takes (t : tbl) (i n : nat) : Prop :=
  exists y params va r c, In y (tb_syms t) /\ sy_body y = SyForeign i params va r c /\
    (n = length params \/ va = true /\ length params <= n).

(** [ht pc h]: the height at [pc], counted from the frame base, is [h].  One
    height per address; the program and every function start at height 0; enough
    operands for every instruction; the height after it is the one of the
    addresses it can go to; calls are to functions, and foreign ones get the
    arguments they were declared with. *)
Record heights (t : tbl) (C : program) (fpcs : list Z) (ht : Z -> nat -> Prop) : Prop := {
  hs_one : forall pc h h', ht pc h -> ht pc h' -> h = h';
  hs_start : ht 0%Z 0;
  hs_fun : forall i, fun_number t i -> exists e, nth_error fpcs i = Some e /\ ht e 0;
  hs_step : forall pc h, ht pc h -> exists i next, decode C pc = Ok (i, next) /\ pops i <= h /\
    (forall pc', In pc' (succs i next) -> ht pc' (h - pops i + pushes i)) /\
    match i with ICall _ f => fun_number t (Z.to_nat f) | ICallF n f => foreign_takes t (Z.to_nat f) (Z.to_nat n) | _ => True end
}.

(** Programs for which the code generator keeps the stack in order: [break] and
    [continue] only in loop bodies (elsewhere they jump to address 0), every
    field of a struct initialised, string constants among the first 256 (the
    instruction for the others is misread). *)
Section Plain.
Variable t : tbl.
Definition all_of (l : list Prop) : Prop := fold_right and True l.
Fixpoint plain_e (e : texpr) : Prop :=
  match e with
  | TStr i => i < 256
  | TId (RConst id) _ => forall i, cval t id = Some (KStr i) -> i < 256
  | TNew id names args =>
      all_of (map plain_e args) /\
      forall fs, sfields t id = Some fs ->
        match names with
        | [] => length args = length fs
        | _ => Forall (fun f => In (fd_name f) (map fst (combine names args))) fs
        end
  | TCall _ args _ => all_of (map plain_e args)
  | TBin _ l r _ => plain_e l /\ plain_e r
  | TUn _ e _ | TParen e | TCast e _ | TDot e _ _ => plain_e e
  | TIndex a i _ _ _ => plain_e a /\ plain_e i
  | TTern c a b _ => plain_e c /\ plain_e a /\ plain_e b
  | _ => True
  end.
Fixpoint plain_s (loop : bool) (s : tstmt) : Prop :=
  match s with
  | TSCall _ _ args => all_of (map plain_e args)
  | TSDecl _ _ e => plain_e e
  | TSAsg _ _ l r => plain_e l /\ plain_e r
  | TSBlock _ ss => all_of (map (plain_s loop) ss)
  | TSProc _ _ body => plain_s false body
  | TSIf _ c a b => plain_e c /\ plain_s loop a /\ match b with Some b => plain_s loop b | None => True end
  | TSWhile _ c body => plain_e c /\ plain_s true body
  | TSFor _ i c st body => plain_s false i /\ plain_e c /\ plain_s false st /\ plain_s true body
  | TSReturn _ (Some e) => plain_e e
  | TSBreak _ | TSContinue _ => loop = true
  | _ => True
  end.
End Plain.

(** A thread about to execute an instruction: the stack is as high as [ht] says,
    and none of the operands of the instruction lies below the frame base. *)
Definition stack_ok {H} (M : machine H) (ht : Z -> nat -> Prop) (t : thread H) : Prop :=
  (0 <= t_pc t)%Z -> exists i next h, at_instr M t i next /\ ht (t_pc t) h /\ length (t_stk t) = t_fp t + h /\ pops i <= h.

(** Cycles lead from [t] to [t']. *)
Inductive cycled {H} (M : machine H) (poll : nat -> nat -> bool) : thread H -> thread H -> Prop :=
| cycled_refl t : cycled M poll t t
| cycled_step t b t1 t' : cycles M poll t (Ok (b, t1)) -> cycled M poll t1 t' -> cycled M poll t t'.
