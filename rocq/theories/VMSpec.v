(** * The thread API as a user sees it: cycles, runs, histories *)
From Verif Require Import Base Values Code Heap GCSpec VM.
Local Open Scope nat_scope.

Section Spec.
Context {H : Type} (M : machine H) (poll : nat -> nat -> bool).

(** [Tiny_ExecuteCycle] on [t] ends with [r] (it may call back into Tiny any
    number of times; [Fuel] is not an end). *)
Definition cycles (t : thread H) (r : outcome (bool * thread H)) : Prop :=
  r <> Fuel /\ exists fuel, execute_cycle M poll fuel t = r.

(** [Tiny_Run] on [t] ends with [r]. *)
Definition runs (t : thread H) (r : outcome (thread H)) : Prop :=
  r <> Fuel /\ exists fuel, run M poll fuel t = r.

(** [Tiny_CallFunction] ends with [r]. *)
Definition calls (t : thread H) (f : Z) (args : list value) (r : outcome (value * thread H)) : Prop :=
  r <> Fuel /\ exists fuel, call_function M poll fuel t f args = r.

(** The host executes a piece of code that uses the API on [t]. *)
Definition host_does (p : fprog H) (t : thread H) (r : outcome (value * thread H)) : Prop :=
  r <> Fuel /\ exists fuel, run_fprog M (call_function M poll fuel) p t = r.

(** Repeating [Tiny_ExecuteCycle] while it returns true. *)
Inductive iterates : thread H -> outcome (thread H) -> Prop :=
| it_stop t t' : cycles t (Ok (false, t')) -> iterates t (Ok t')
| it_go t t' r : cycles t (Ok (true, t')) -> iterates t' r -> iterates t r
| it_abort t : cycles t Abort -> iterates t Abort
| it_ub t : cycles t UB -> iterates t UB.

(** Every thread some history of API calls leads to. *)
Inductive reached : thread H -> Prop :=
| reached_init w : reached (init_thread w)
| reached_start t : reached t -> reached (start_thread M t)
| reached_cycle t b t' : reached t -> cycles t (Ok (b, t')) -> reached t'
| reached_host p t v t' : reached t -> host_does p t (Ok (v, t')) -> reached t'.

(** The instruction a thread stands at, and the address after it. *)
Definition at_instr (t : thread H) (i : instr) (next : Z) : Prop :=
  (0 <= t_pc t)%Z /\ decode (m_code M) (t_pc t) = Ok (i, next).
End Spec.

(** The values a thread can get at directly: the last return value, the
    operand stack and the global variables. *)
Definition root_values {H} (M : machine H) (t : thread H) : list value :=
  t_ret t :: t_stk t ++ match t_globs t with Some g => firstn (m_nglobals M) g | None => [] end.

(** Bookkeeping of the object list. *)
Definition thread_ok {H} (t : thread H) : Prop :=
  heap_ok (t_heap t) /\ t_nobj t = length (t_heap t) /\
  Forall (fun o => o_id o < t_next t) (t_heap t).

(** [inside d t t']: cycles lead from [t] to [t'], and up to there (but not
    necessarily in [t']) the call depth stays above [d]. *)
Inductive inside {H} (M : machine H) (poll : nat -> nat -> bool) (d : nat)
  : thread H -> thread H -> Prop :=
| inside_refl t : inside M poll d t t
| inside_step t t1 t' : d < length (t_frames t) -> cycles M poll t (Ok (true, t1)) ->
    inside M poll d t1 t' -> inside M poll d t t'.

(** Several threads of one state, sharing the host's memory, scheduled in any
    order: [sys_run] performs one cycle of thread [i] for each entry of the
    schedule. *)
Inductive sys_run {H} (M : machine H) (poll : nat -> nat -> bool)
  : H * list (thread H) -> list nat -> H * list (thread H) -> Prop :=
| sys_done s : sys_run M poll s [] s
| sys_step w ts i t b t' sched s' :
    nth_error ts i = Some t ->
    cycles M poll (with_host t w) (Ok (b, t')) ->
    sys_run M poll (t_host t', update ts i t') sched s' ->
    sys_run M poll (w, ts) (i :: sched) s'.

(** One thread on its own. *)
Inductive solo_run {H} (M : machine H) (poll : nat -> nat -> bool) (w : H)
  : thread H -> nat -> thread H -> Prop :=
| solo_done t : solo_run M poll w t 0 t
| solo_step t b t1 n t' : cycles M poll (with_host t w) (Ok (b, t1)) ->
    solo_run M poll w t1 n t' -> solo_run M poll w t (S n) t'.

(** The host's memory is only read: no foreign function writes it and no
    finalizer changes it. *)
Fixpoint reads_only {H} (p : fprog H) : Prop :=
  match p with
  | FRet _ | FAbort | FUB => True
  | FHost k => forall w, reads_only (k w)
  | FSetHost _ _ => False
  | FObj _ k => forall b, reads_only (k b)
  | FNewStr _ k => forall v, reads_only (k v)
  | FNewNative _ _ k => forall v, reads_only (k v)
  | FGetGlobal _ k => forall v, reads_only (k v)
  | FSetGlobal _ _ k => reads_only k
  | FCall _ _ k => forall v, reads_only (k v)
  end.
Definition host_read_only {H} (M : machine H) : Prop :=
  (forall fn, In fn (m_foreign M) -> forall args, reads_only (fn args)) /\
  (forall p w a, n_finalize (m_natives M) p w a = w).

(** Field [j] of the struct object [id]. *)
Definition field_of (h : heap) (id j : nat) : option value :=
  match hget h id with
  | Some (mkObj _ _ (BStruct fs)) => nth_error fs j
  | _ => None
  end.

(** Mathematical meaning of the integer operators ([/] and [%] truncate toward
    zero, [>>] rounds down). *)
Definition int_meaning (o : binop) (a b : Z) : Z :=
  (match o with
   | OAdd => a + b
   | OSub => a - b
   | OMul => a * b
   | ODiv => Z.quot a b
   | OMod => Z.rem a b
   | OOr => Z.lor a b
   | OAnd => Z.land a b
   | OShl => a * 2^b
   | OShr => a / 2^b
   | _ => 0
   end)%Z.

(** Operators computed in 64 bits, operators whose result passes through a
    32-bit int, comparisons. *)
Definition is_wide (o : binop) : bool := match o with OAdd | OSub | OMul | ODiv => true | _ => false end.
Definition is_narrow (o : binop) : bool :=
  match o with OMod | OOr | OAnd | OShl | OShr => true | _ => false end.
Definition int_compare (o : binop) (a b : Z) : option Prop :=
  (match o with
   | OLt => Some (a < b) | OLte => Some (a <= b) | OGt => Some (a > b) | OGte => Some (a >= b)
   | _ => None
   end)%Z.

(** Where C defines the operation on int64_t. *)
Definition int_defined (o : binop) (a b : Z) : Prop :=
  (match o with
   | OAdd | OSub | OMul => - 2^63 <= int_meaning o a b < 2^63
   | ODiv | OMod => b <> 0 /\ - 2^63 <= Z.quot a b < 2^63
   | OShl => 0 <= b < 64 /\ 0 <= a /\ a * 2^b < 2^63
   | OShr => 0 <= b < 64
   | _ => True
   end)%Z.

(** How an instruction is written down: its name in opcodes.h:3-70 and its operands. *)
Definition binop_name (o : binop) : string :=
  (match o with
   | OAdd => "ADD" | OSub => "SUB" | OMul => "MUL" | ODiv => "DIV" | OMod => "MOD" | OOr => "OR" | OAnd => "AND"
   | OShl => "SHIFT_LEFT" | OShr => "SHIFT_RIGHT" | OLt => "LT" | OLte => "LTE" | OGt => "GT" | OGte => "GTE"
   end)%string.
Definition written (i : instr) : string * list Z :=
  (match i with
   | IPushNull => ("PUSH_NULL", []) | IPushNullN n => ("PUSH_NULL_N", [n])
   | IPushTrue => ("PUSH_TRUE", []) | IPushFalse => ("PUSH_FALSE", [])
   | IPushInt z => ("PUSH_INT", [z]) | IPush0 => ("PUSH_0", []) | IPush1 => ("PUSH_1", [])
   | IPushChar b => ("PUSH_CHAR", [b]) | IPushFloat b => ("PUSH_FLOAT", [b])
   | IPushString k => ("PUSH_STRING", [k]) | IPushStringFF k => ("PUSH_STRING_FF", [k])
   | IPushStruct n => ("PUSH_STRUCT", [n]) | IStructGet k => ("STRUCT_GET", [k]) | IStructSet k => ("STRUCT_SET", [k])
   | IBin o => (binop_name o, []) | IAdd1 => ("ADD1", []) | ISub1 => ("SUB1", [])
   | IEqu => ("EQU", []) | INot => ("LOG_NOT", [])
   | ISet k => ("SET", [k]) | IGet k => ("GET", [k]) | IGoto k => ("GOTO", [k]) | IGotoz k => ("GOTOZ", [k])
   | ICall n f => ("CALL", [n; f]) | IReturn => ("RETURN", []) | IReturnValue => ("RETURN_VALUE", [])
   | ICallF n f => ("CALLF", [n; f])
   | IGetLocal k => ("GETLOCAL", [k]) | IGetLocalW k => ("GETLOCAL_W", [k]) | ISetLocal k => ("SETLOCAL", [k])
   | IGetRetval => ("GET_RETVAL", []) | IHalt => ("HALT", [])
   end)%string.
