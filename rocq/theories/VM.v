(** * The virtual machine: /repo/tiny/src/tiny.c:258-346, 496-647, 1133-1442

    Model of [Tiny_StateThread] (tiny.h:142-171).  The operand stack is a list,
    top first; [sp] is its length.  Slots above [sp] keep old values in C; the
    model calls any read of them [UB].  Object addresses are never reused, so a
    dangling pointer is recognised when it is followed. *)
From Verif Require Import Base Float64 Values Code Heap.
Local Open Scope Z_scope.

(** A foreign function (tiny.h:173), as the sequence of its uses of the API.
    Between two uses it may do anything with the host's memory [H]; it cannot
    touch the thread other than through the API.  It always returns unless a
    call back into Tiny does not. *)
Inductive fprog (H : Type) : Type :=
| FRet (v : value)
| FAbort                                                  (* assert / exit *)
| FUB
| FHost (k : H -> fprog H)                                (* read the host's memory *)
| FSetHost (h : H) (k : fprog H)                          (* write it *)
| FObj (v : value) (k : obody -> fprog H)                 (* Tiny_ToString, Tiny_ToAddr, Tiny_GetField... *)
| FNewStr (s : text) (k : value -> fprog H)               (* Tiny_NewString, Tiny_NewStringCopy *)
| FNewNative (addr : Z) (prop : nat) (k : value -> fprog H) (* Tiny_NewNative *)
| FGetGlobal (i : Z) (k : value -> fprog H)               (* Tiny_GetGlobal *)
| FSetGlobal (i : Z) (v : value) (k : fprog H)            (* Tiny_SetGlobal *)
| FCall (f : Z) (args : list value) (k : value -> fprog H). (* Tiny_CallFunction *)
Arguments FRet {H}. Arguments FAbort {H}. Arguments FUB {H}. Arguments FHost {H}.
Arguments FSetHost {H}. Arguments FObj {H}. Arguments FNewStr {H}. Arguments FNewNative {H}.
Arguments FGetGlobal {H}. Arguments FSetGlobal {H}. Arguments FCall {H}.

(** The parts of [Tiny_State] the VM reads (detail.h:47-66), all constant while
    threads run.  [m_stack] is TINY_THREAD_STACK_SIZE ([None] = unlimited, used
    only in proofs), [m_depth] is TINY_THREAD_MAX_CALL_DEPTH. *)
Record machine (H : Type) := mkMachine {
  m_code : program;
  m_strings : list text;
  m_fpcs : list Z;
  m_foreign : list (list value -> fprog H);
  m_nglobals : nat;
  m_natives : natives H;
  m_stack : option nat;
  m_depth : nat
}.
Arguments m_code {H}. Arguments m_strings {H}. Arguments m_fpcs {H}. Arguments m_foreign {H}.
Arguments m_nglobals {H}. Arguments m_natives {H}. Arguments m_stack {H}. Arguments m_depth {H}.

(** tiny.h:10-14 *)
Definition stack_size : nat := 128.
Definition call_depth : nat := 64.

(** tiny.h:137-140 [Tiny_Frame] *)
Record frame := mkFrame { f_pc : Z; f_fp : nat; f_nargs : nat }.

(** tiny.h:142-171 [Tiny_StateThread]; [t_frames] innermost first, [fc] is its
    length; [t_globs = None] is the NULL [globalVars] pointer; [t_next] is the
    next unused object name. *)
Record thread (H : Type) := mkThread {
  t_pc : Z;
  t_fp : nat;
  t_stk : list value;
  t_frames : list frame;
  t_ret : value;
  t_globs : option (list value);
  t_heap : heap;
  t_next : nat;
  t_nobj : nat;
  t_max : nat;
  t_host : H
}.
Arguments mkThread {H}.
Arguments t_pc {H}. Arguments t_fp {H}. Arguments t_stk {H}. Arguments t_frames {H}.
Arguments t_ret {H}. Arguments t_globs {H}. Arguments t_heap {H}. Arguments t_next {H}.
Arguments t_nobj {H}. Arguments t_max {H}. Arguments t_host {H}.

(** Arithmetic on the union of [Tiny_Value]: the integer view of a float is its
    bit pattern; of anything else it is not modelled ([UB]). *)
Definition raw_i (v : value) : option Z :=
  match v with
  | VInt i => Some i
  | VFloat b => Some (to_signed64 b)
  | _ => None
  end.

Definition as_float (v : value) : option Z :=
  match v with
  | VInt i => Some (f_of_int i)
  | VFloat b => Some b
  | _ => None
  end.

Definition int64_result (z : Z) : outcome value :=
  if in_int64 z then Ok (VInt z) else UB.   (* signed overflow *)

(** C [/] and [%] on int64_t *)
Definition c_div (a b : Z) : outcome Z :=
  if (b =? 0) || ((a =? - 2^63) && (b =? -1)) then UB else Ok (Z.quot a b).
Definition c_rem (a b : Z) : outcome Z :=
  if (b =? 0) || ((a =? - 2^63) && (b =? -1)) then UB else Ok (Z.rem a b).

(** C [<<] and [>>] on int64_t *)
Definition c_shl (a b : Z) : outcome Z :=
  if (b <? 0) || (63 <? b) || (a <? 0) || (2^63 <=? a * 2^b) then UB else Ok (a * 2^b).
Definition c_shr (a b : Z) : outcome Z :=
  if (b <? 0) || (63 <? b) then UB else Ok (Z.shiftr a b).

(** tiny.c:1267-1280 BIN_OP *)
Definition bin_op (fi : Z -> Z -> outcome value) (ff : Z -> Z -> Z) (a b : value) : outcome value :=
  match a, b with
  | VInt x, VInt y => fi x y
  | _, _ => match as_float a, as_float b with
            | Some x, Some y => Ok (VFloat (ff x y))
            | _, _ => UB
            end
  end.

(** tiny.c:1282-1288 BIN_OP_INT: the result goes through [Tiny_NewInt(int)] *)
Definition bin_op_int (f : Z -> Z -> outcome Z) (a b : value) : outcome value :=
  match raw_i a, raw_i b with
  | Some x, Some y => match f x y with Ok z => Ok (VInt (wrap32 z)) | _ => UB end
  | _, _ => UB
  end.

(** tiny.c:1290-1305 REL_OP *)
Definition rel_op (fi ff : Z -> Z -> bool) (a b : value) : outcome value :=
  match a, b with
  | VInt x, VInt y => Ok (VBool (fi x y))
  | _, _ => match as_float a, as_float b with
            | Some x, Some y => Ok (VBool (ff x y))
            | _, _ => UB
            end
  end.

(** tiny.c:1307-1320 *)
Definition do_bin (o : binop) (a b : value) : outcome value :=
  match o with
  | OAdd => bin_op (fun x y => int64_result (x + y)) fadd a b
  | OSub => bin_op (fun x y => int64_result (x - y)) fsub a b
  | OMul => bin_op (fun x y => int64_result (x * y)) fmul a b
  | ODiv => bin_op (fun x y => match c_div x y with Ok z => Ok (VInt z) | _ => UB end) fdiv a b
  | OMod => bin_op_int c_rem a b
  | OOr => bin_op_int (fun x y => Ok (Z.lor x y)) a b
  | OAnd => bin_op_int (fun x y => Ok (Z.land x y)) a b
  | OShl => bin_op_int c_shl a b
  | OShr => bin_op_int c_shr a b
  | OLt => rel_op Z.ltb fltb a b
  | OLte => rel_op Z.leb fleb a b
  | OGt => rel_op Z.gtb (fun x y => fltb y x) a b
  | OGte => rel_op Z.geb (fun x y => fleb y x) a b
  end.

(** tiny.c:1326-1334 ADD1 / SUB1: [.i += d] whatever the type *)
Definition add_raw (d : Z) (v : value) : outcome value :=
  match v with
  | VInt i => int64_result (i + d)
  | VFloat b => if in_int64 (to_signed64 b + d) then Ok (VFloat ((b + d) mod 2^64)) else UB
  | _ => UB
  end.

(** Stack slot [i] counted from the bottom. *)
Definition slot (s : list value) (i : nat) : outcome value :=
  if (i <? length s)%nat then of_option (nth_error s (length s - 1 - i)) else UB.
Definition set_slot (s : list value) (i : nat) (v : value) : outcome (list value) :=
  if (i <? length s)%nat then Ok (update s (length s - 1 - i) v) else UB.

(** Lower the stack to height [n] (never raise it: stale slots). *)
Definition cut (s : list value) (n : nat) : outcome (list value) :=
  if (n <=? length s)%nat then Ok (skipn (length s - n) s) else UB.

(** Index of a local: [thread->fp + localIdx] in uint32_t (tiny.c:1401-1417) *)
Definition local_slot (fp : nat) (idx : Z) : nat := Z.to_nat ((Z.of_nat fp + idx) mod 2^32).

Section Machine.
Context {H : Type}.
Notation thread := (thread H).
Notation machine := (machine H).

Definition with_pc (t : thread) pc :=
  mkThread pc (t_fp t) (t_stk t) (t_frames t) (t_ret t) (t_globs t) (t_heap t) (t_next t) (t_nobj t) (t_max t) (t_host t).
Definition with_stk (t : thread) s :=
  mkThread (t_pc t) (t_fp t) s (t_frames t) (t_ret t) (t_globs t) (t_heap t) (t_next t) (t_nobj t) (t_max t) (t_host t).
Definition with_ret (t : thread) r :=
  mkThread (t_pc t) (t_fp t) (t_stk t) (t_frames t) r (t_globs t) (t_heap t) (t_next t) (t_nobj t) (t_max t) (t_host t).
Definition with_globs (t : thread) g :=
  mkThread (t_pc t) (t_fp t) (t_stk t) (t_frames t) (t_ret t) g (t_heap t) (t_next t) (t_nobj t) (t_max t) (t_host t).
Definition with_heap (t : thread) h :=
  mkThread (t_pc t) (t_fp t) (t_stk t) (t_frames t) (t_ret t) (t_globs t) h (t_next t) (t_nobj t) (t_max t) (t_host t).
Definition with_host (t : thread) (w : H) : thread :=
  mkThread (t_pc t) (t_fp t) (t_stk t) (t_frames t) (t_ret t) (t_globs t) (t_heap t) (t_next t) (t_nobj t) (t_max t) w.
(** pc, fp, stack and frames: the control part *)
Definition with_ctl (t : thread) pc fp s fr :=
  mkThread pc fp s fr (t_ret t) (t_globs t) (t_heap t) (t_next t) (t_nobj t) (t_max t) (t_host t).

(** tiny.c:1133-1135 [DoPush]; C does not check the bound, writing past the
    array is [UB] *)
Definition room (M : machine) (n : nat) : bool :=
  match m_stack M with None => true | Some k => (n <=? k)%nat end.
Definition push (M : machine) (t : thread) (v : value) : outcome thread :=
  if room M (S (length (t_stk t))) then Ok (with_stk t (v :: t_stk t)) else UB.

(** tiny.c:1137 [DoPop] *)
Definition pop (t : thread) : outcome (value * thread) :=
  match t_stk t with
  | [] => UB
  | v :: s => Ok (v, with_stk t s)
  end.

(** tiny.c:265-318 [NewObject] and its siblings: allocate, link at [gcHead],
    count.  Allocation never collects. *)
Definition alloc (t : thread) (b : obody) : nat * thread :=
  (t_next t,
   mkThread (t_pc t) (t_fp t) (t_stk t) (t_frames t) (t_ret t) (t_globs t)
     (mkObj (t_next t) false b :: t_heap t) (S (t_next t)) (S (t_nobj t)) (t_max t) (t_host t)).

(** tiny.c:1139-1144 [DoPushIndir] *)
Definition push_indir (M : machine) (t : thread) (nargs : nat) : outcome thread :=
  oassert (length (t_frames t) <? m_depth M)%nat
    (Ok (with_ctl t (t_pc t) (length (t_stk t)) (t_stk t)
           (mkFrame (t_pc t) (t_fp t) nargs :: t_frames t))).

(** tiny.c:1146-1156 [DoPopIndir] *)
Definition pop_indir (t : thread) : outcome thread :=
  match t_frames t with
  | [] => Abort
  | f :: fr =>
      if (f_nargs f <=? t_fp t)%nat then
        match cut (t_stk t) (t_fp t) with
        | Ok _ =>
            match cut (t_stk t) (t_fp t - f_nargs f) with
            | Ok s => Ok (with_ctl t (f_pc f) (f_fp f) s fr)
            | _ => UB
            end
        | _ => UB
        end
      else UB
  end.

(** tiny.c:1158-1161 [ExpectBool] *)
Definition expect_bool (v : value) : outcome bool :=
  match v with VBool b => Ok b | _ => Abort end.

(** tiny.c:523-531 [AllocGlobals]: zeroed storage is null values *)
Definition alloc_globals (M : machine) (t : thread) : thread :=
  match t_globs t with
  | Some _ => t
  | None => with_globs t (Some (repeat VNull (m_nglobals M)))
  end.

(** [globalVars[i]] as the VM accesses it (no check, tiny.c:1349-1359) *)
Definition glob_at (t : thread) (i : Z) : outcome value :=
  match t_globs t with
  | Some g => of_option (nth_error g (Z.to_nat i))
  | None => UB
  end.
Definition glob_put (t : thread) (i : Z) (v : value) : outcome thread :=
  match t_globs t with
  | Some g => if (Z.to_nat i <? length g)%nat
              then Ok (with_globs t (Some (update g (Z.to_nat i) v))) else UB
  | None => UB
  end.

(** tiny.c:569-581 [Tiny_GetGlobal], [Tiny_SetGlobal] *)
Definition get_global (M : machine) (t : thread) (i : Z) : outcome value :=
  oassert ((0 <=? i) && (i <? Z.of_nat (m_nglobals M)))
    (match t_globs t with None => Abort | Some _ => glob_at t i end).
Definition set_global (M : machine) (t : thread) (i : Z) (v : value) : outcome thread :=
  oassert ((0 <=? i) && (i <? Z.of_nat (m_nglobals M)))
    (match t_globs t with None => Abort | Some _ => glob_put t i v end).

(** The roots of tiny.c:638-647 [MarkAll], in its order *)
Definition roots (M : machine) (t : thread) : outcome (list value) :=
  match m_nglobals M, t_globs t with
  | O, _ => Ok (t_ret t :: rev (t_stk t))
  | n, Some g => if (n <=? length g)%nat then Ok (t_ret t :: rev (t_stk t) ++ firstn n g) else UB
  | _, None => UB
  end.

(** tiny.c:161-165 [GarbageCollect] *)
Definition gc (M : machine) (t : thread) : outcome thread :=
  match roots M t with
  | Ok rs =>
      match collect (m_natives M) (t_heap t) (t_host t) (t_nobj t) rs with
      | Ok (h, w, n, mx) =>
          Ok (mkThread (t_pc t) (t_fp t) (t_stk t) (t_frames t) (t_ret t) (t_globs t)
                h (t_next t) n mx w)
      | Abort => Abort
      | _ => UB
      end
  | _ => UB
  end.

(** ** Foreign functions *)
Section Foreign.
Variable M : machine.
(** [Tiny_CallFunction] *)
Variable callf : thread -> Z -> list value -> outcome (value * thread).

Fixpoint run_fprog (p : fprog H) (t : thread) : outcome (value * thread) :=
  match p with
  | FRet v => Ok (v, t)
  | FAbort => Abort
  | FUB => UB
  | FHost k => run_fprog (k (t_host t)) t
  | FSetHost w k => run_fprog k (with_host t w)
  | FObj v k =>
      match ref_of v with
      | Some id => match hget (t_heap t) id with
                   | Some o => run_fprog (k (o_body o)) t
                   | None => UB
                   end
      | None => UB
      end
  | FNewStr s k => let '(id, t') := alloc t (BStr s) in run_fprog (k (VStr id)) t'
  | FNewNative a pr k =>
      oassert (0 <=? t_pc t)
        (let '(id, t') := alloc t (BNative a pr) in run_fprog (k (VNative id)) t')
  | FGetGlobal i k => match get_global M t i with
                      | Ok v => run_fprog (k v) t | Abort => Abort | _ => UB end
  | FSetGlobal i v k => match set_global M t i v with
                        | Ok t' => run_fprog k t' | Abort => Abort | _ => UB end
  | FCall f args k =>
      match callf t f args with
      | Ok (v, t') => run_fprog (k v) t'
      | Abort => Abort
      | UB => UB
      | Fuel => Fuel
      end
  end.

(** The first [n] elements of the stack, oldest first. *)
Definition top_args (s : list value) (n : nat) : list value := rev (firstn n s).

Local Open Scope outcome_scope.

(** One instruction, [t] already standing at the next one (tiny.c:1170-1432;
    no case looks at the old pc). *)
Definition exec (i : instr) (t : thread) : outcome thread :=
  match i with
  | IPushNull => push M t VNull
  | IPushNullN n =>
      let k := Z.to_nat n in
      if room M (k + length (t_stk t))%nat
      then Ok (with_stk t (repeat VNull k ++ t_stk t)) else UB
  | IPushTrue => push M t (VBool true)
  | IPushFalse => push M t (VBool false)
  | IPushInt z => push M t (VInt (wrap32 z))           (* Tiny_NewInt(int) *)
  | IPush0 => push M t (VInt 0)
  | IPush1 => push M t (VInt 1)
  | IPushChar b => push M t (VInt b)
  | IPushFloat b => push M t (VFloat b)
  | IPushString k | IPushStringFF k =>
      if k <? 0 then UB
      else match nth_error (m_strings M) (Z.to_nat k) with
           | Some s => push M t (VCStr s)
           | None => UB
           end
  | IPushStruct n =>
      oassert (0 <? n)
        (let k := Z.to_nat n in
         if (k <=? length (t_stk t))%nat then
           let '(id, t') := alloc t (BStruct (top_args (t_stk t) k)) in
           push M (with_stk t' (skipn k (t_stk t))) (VStruct id)
         else UB)
  | IStructGet k =>
      match t_stk t with
      | VStruct id :: s =>
          match hget (t_heap t) id with
          | Some (mkObj _ _ (BStruct fs)) =>
              match nth_error fs (Z.to_nat k) with
              | Some v => Ok (with_stk t (v :: s))
              | None => Abort
              end
          | _ => UB
          end
      | [] => UB
      | _ => Abort
      end
  | IStructSet k =>
      match t_stk t with
      | VStruct id :: v :: s =>
          match hget (t_heap t) id with
          | Some (mkObj _ _ (BStruct fs)) =>
              if (Z.to_nat k <? length fs)%nat then
                Ok (with_heap (with_stk t s)
                      (hset (t_heap t) id (fun o => mkObj (o_id o) (o_mark o)
                                              (BStruct (update fs (Z.to_nat k) v)))))
              else Abort
          | _ => UB
          end
      | [] | [_] => UB
      | _ => Abort
      end
  | IBin o =>
      match t_stk t with
      | b :: a :: s => v <- do_bin o a b ;; Ok (with_stk t (v :: s))
      | _ => UB
      end
  | IAdd1 =>
      match t_stk t with
      | a :: s => v <- add_raw 1 a ;; Ok (with_stk t (v :: s))
      | _ => UB
      end
  | ISub1 =>
      match t_stk t with
      | a :: s => v <- add_raw (-1) a ;; Ok (with_stk t (v :: s))
      | _ => UB
      end
  | IEqu =>
      match t_stk t with
      | b :: a :: s => r <- values_equal (t_heap t) a b ;; Ok (with_stk t (VBool r :: s))
      | _ => UB
      end
  | INot =>
      match t_stk t with
      | a :: s => r <- expect_bool a ;; Ok (with_stk t (VBool (negb r) :: s))
      | _ => UB
      end
  | ISet k => ' (v, t1) <- pop t ;; glob_put t1 k v
  | IGet k => v <- glob_at t k ;; push M t v
  | IGoto k => Ok (with_pc t (to_signed32 k))
  | IGotoz k =>
      ' (v, t1) <- pop t ;;
      b <- expect_bool v ;;
      Ok (if b then t1 else with_pc t1 (to_signed32 k))
  | ICall n f =>
      t1 <- push_indir M t (Z.to_nat n) ;;
      match nth_error (m_fpcs M) (Z.to_nat f) with
      | Some pc => Ok (with_pc t1 pc)
      | None => UB
      end
  | IReturn => pop_indir (with_ret t VNull)
  | IReturnValue => ' (v, t1) <- pop t ;; pop_indir (with_ret t1 v)
  | ICallF n f =>
      let k := Z.to_nat n in
      if (k <=? length (t_stk t))%nat then
        match nth_error (m_foreign M) (Z.to_nat f) with
        | Some fn =>
            ' (v, t1) <- run_fprog (fn (top_args (t_stk t) k)) t ;;
            s <- cut (t_stk t1) (length (t_stk t) - k) ;;
            Ok (with_ret (with_stk t1 s) v)
        | None => UB
        end
      else UB
  | IGetLocal k => v <- slot (t_stk t) (local_slot (t_fp t) k) ;; push M t v
  | IGetLocalW k => v <- slot (t_stk t) (t_fp t + Z.to_nat k) ;; push M t v
  | ISetLocal k =>
      ' (v, t1) <- pop t ;;
      s <- set_slot (t_stk t1) (local_slot (t_fp t) k) v ;;
      Ok (with_stk t1 s)
  | IGetRetval => push M t (t_ret t)
  | IHalt => Ok (with_pc t (-1))
  end.

(** When to collect, from [numObjects] and [maxNumObjects]. *)
Variable poll : nat -> nat -> bool.

(** tiny.c:1163-1442 [ExecuteCycle] *)
Definition cycle (t : thread) : outcome (bool * thread) :=
  if t_pc t <? 0 then Ok (false, t)
  else
    ' (i, next) <- decode (m_code M) (t_pc t) ;;
    t1 <- exec i (with_pc t next) ;;
    t2 <- (if poll (t_nobj t1) (t_max t1) then gc M t1 else Ok t1) ;;
    Ok (true, t2).
End Foreign.

(** tiny.c:1437: [if (thread->numObjects >= thread->maxNumObjects)] *)
Definition real_poll (n mx : nat) : bool := (mx <=? n)%nat.
Definition no_poll (n mx : nat) : bool := false.

Section Run.
Variable M : machine.
Variable poll : nat -> nat -> bool.
Local Open Scope outcome_scope.

(** tiny.c:583-606: entering a function from the host.  The frame keeps the
    function's own entry as return pc: [thread->pc] is set before
    [DoPushIndir]. *)
Definition enter_call (t : thread) (f : Z) (args : list value) : outcome thread :=
  oassert (0 <=? f)
    (let t1 := alloc_globals M t in
     if room M (length args + length (t_stk t1))%nat then
       match nth_error (m_fpcs M) (Z.to_nat f) with
       | Some pc =>
           push_indir M (with_pc (with_stk t1 (rev args ++ t_stk t1)) pc)
             (Z.to_nat (Z.of_nat (length args) mod 256))    (* uint8_t nargs *)
       | None => UB
       end
     else UB).

(** tiny.c:607-617: restoring the caller *)
Definition leave_call (t0 t : thread) : outcome (value * thread) :=
  s <- cut (t_stk t) (length (t_stk t0)) ;;
  if (length (t_frames t0) <=? length (t_frames t))%nat then
    Ok (t_ret t,
        with_ret (with_ctl t (t_pc t0) (t_fp t0) s
                    (skipn (length (t_frames t) - length (t_frames t0)) (t_frames t)))
                 (t_ret t0))
  else UB.

(** The loops [while (thread->fc > fc && ExecuteCycle(thread))] (tiny.c:603,
    [floor = Some fc]) and [while (ExecuteCycle(thread))] (tiny.c:622,
    [floor = None]). *)
Fixpoint loop (fuel : nat) (floor : option nat) (t : thread) : outcome thread :=
  let go := match floor with
            | Some fc => (fc <? length (t_frames t))%nat
            | None => true
            end in
  if go then
    match fuel with
    | O => Fuel
    | S f =>
        ' (b, t') <- cycle M
                       (fun t0 fn args =>
                          t1 <- enter_call t0 fn args ;;
                          t2 <- loop f (Some (length (t_frames t0))) t1 ;;
                          leave_call t0 t2)
                       poll t ;;
        if b then loop f floor t' else Ok t'
    end
  else Ok t.

(** tiny.c:583-618 [Tiny_CallFunction] *)
Definition call_function (fuel : nat) (t0 : thread) (fn : Z) (args : list value)
  : outcome (value * thread) :=
  t1 <- enter_call t0 fn args ;;
  t2 <- loop fuel (Some (length (t_frames t0))) t1 ;;
  leave_call t0 t2.

(** tiny.c:620 [Tiny_ExecuteCycle] and tiny.c:622 [Tiny_Run] *)
Definition execute_cycle (fuel : nat) (t : thread) : outcome (bool * thread) :=
  cycle M (call_function fuel) poll t.
Definition run (fuel : nat) (t : thread) : outcome thread := loop fuel None t.

(** tiny.c:496-521 [Tiny_InitThreadWithContext], 533-538 [Tiny_StartThread] *)
Definition init_thread (w : H) : thread :=
  mkThread (-1) 0 [] [] VNull None [] 0 0 8 w.
Definition start_thread (t : thread) : thread := with_pc (alloc_globals M t) 0.

(** tiny.c:624-636 [Tiny_DestroyThread]: the host after every object is
    finalized; nothing of the thread is usable afterwards. *)
Definition destroy_thread (t : thread) : H :=
  fold_left (fun w o => delete_object (m_natives M) w (o_body o)) (t_heap t) (t_host t).
End Run.
End Machine.
