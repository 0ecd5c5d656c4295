(** * Code generation and [Tiny_CompileString]: /repo/tiny/src/tiny.c:3039-3531,
    3604-4081

    [kst] is the part of [Tiny_State] that a compile changes: the symbol table
    (Symbols.v), the bytes of the program, the entry points of the functions
    ([None] = never written since the last TRealloc), the table of foreign
    functions, the table of source lines.  [k_hist] is not in the code: it keeps
    the typed trees of the statements compiled so far, in the order of their code,
    and nothing reads it (it is there to state theorems).  The nesting count of compiles and the
    arenas are left out. *)
From Verif Require Import Base Token Lexer Values Strings Code FileLine Syntax Symbols Parser Resolve VM Heap.
Local Open Scope Z_scope.
Local Open Scope cm_scope.

Record kst := mkKst {
  k_tbl : tbl;
  k_code : program;
  k_fpcs : list (option Z);
  k_ftab : list (option nat);
  k_lines : list pcline;
  k_hist : list tstmt
}.

Definition km (A : Type) := kst -> cres kst A.

Definition set_tbl (s : kst) t := mkKst t (k_code s) (k_fpcs s) (k_ftab s) (k_lines s) (k_hist s).
Definition set_code (s : kst) c := mkKst (k_tbl s) c (k_fpcs s) (k_ftab s) (k_lines s) (k_hist s).
Definition set_fpcs (s : kst) f := mkKst (k_tbl s) (k_code s) f (k_ftab s) (k_lines s) (k_hist s).
Definition set_ftab (s : kst) f := mkKst (k_tbl s) (k_code s) (k_fpcs s) f (k_lines s) (k_hist s).
Definition set_lines (s : kst) l := mkKst (k_tbl s) (k_code s) (k_fpcs s) (k_ftab s) l (k_hist s).
Definition set_hist (s : kst) h := mkKst (k_tbl s) (k_code s) (k_fpcs s) (k_ftab s) (k_lines s) h.

Definition kon_tbl {A} (m : tbl -> cres tbl A) : km A :=
  fun s => match m (k_tbl s) with
           | COk a t => COk a (set_tbl s t)
           | CFail t => CFail (set_tbl s t)
           | CAbort => CAbort | CUB => CUB | CHang => CHang | CFuel => CFuel
           end.

(** [sb_count(state->program)] *)
Definition here : km Z := fun s => COk (plen (k_code s)) s.

(** [GenerateCode] *)
Definition emit (b : Z) : km unit := fun s => COk tt (set_code s (gen_code (k_code s) b)).
(** [GEN_VALUE] *)
Definition emit_value (size : nat) (align v : Z) : km Z :=
  fun s => let '(c, pos) := gen_value size align v (k_code s) in COk pos (set_code s c).
(** An opcode with the operands CompileExpr writes after it *)
Definition emit_i (i : instr) : km unit := fun s => COk tt (set_code s (gen_instr (k_code s) i)).

(** tiny.c:3039-3048 [GenerateJump] *)
Definition gen_jump (op : Z) (dest : Z) : km Z := emit op ;;; emit_value 4 4 dest.
Definition op_goto : Z := 33.
Definition op_gotoz : Z := 34.

(** tiny.c:3050-3052 [PatchJumpLoc] *)
Definition patch (pos v : Z) : km unit :=
  fun s => match gen_value_at 4 4 v pos (k_code s) with
           | Ok c => COk tt (set_code s c)
           | Abort => CAbort
           | _ => CUB
           end.

(** tiny.c:3054-3064 [GeneratePushInt] *)
Definition push_int (z : Z) : km unit :=
  if z =? 0 then emit_i IPush0 else if z =? 1 then emit_i IPush1 else emit_i (IPushInt z).

(** tiny.c:3073-3081 [GeneratePushString] *)
Definition push_string (i : nat) : km unit :=
  if Z.of_nat i <=? 255 then emit_i (IPushStringFF (Z.of_nat i)) else emit_i (IPushString (Z.of_nat i)).

(** tiny.c:3085-3106 [CompileCallSymbolWithArgsPrepared] *)
Definition call_sym (nargs : Z) (b : symbody) : km unit :=
  match b with
  | SyForeign index args va _ _ =>
      emit 38 ;;;
      let n := Z.of_nat (length args) in
      if negb (va && (n <=? nargs)) && negb (n =? nargs) then cfail
      else emit nargs ;;; emit_value 4 4 (Z.of_nat index) ;;; cret tt
  | SyFunc index _ _ _ => emit_i (ICall nargs (Z.of_nat index))
  | _ => cabort
  end.

Definition call_id (nargs : Z) (id : nat) : km unit :=
  fun s => match sym_at (k_tbl s) id with
           | Some y => call_sym nargs (sy_body y) s
           | None => CUB
           end.

(** tiny.c:3108-3144: reading a variable or a constant *)
Definition get_ref (r : vref) : km unit :=
  fun s =>
    match r with
    | RGlobal id =>
        match sym_at (k_tbl s) id with
        | Some (mkSym _ _ (SyGlobal i _ _)) => emit_i (IGet (Z.of_nat i)) s
        | _ => CUB
        end
    | RConst id =>
        match sym_at (k_tbl s) id with
        | Some (mkSym _ _ (SyConst c)) =>
            match c with
            | KStr i => push_string i s
            | KBool b => emit_i (if b then IPushTrue else IPushFalse) s
            | KInt z => push_int z s
            | KFloat b => emit_i (IPushFloat b) s
            end
        | _ => CUB
        end
    | _ =>
        match var_of (k_tbl s) r with
        | Some v => if (lv_index v <? 0) || (255 <? lv_index v)
                    then emit_i (IGetLocal (lv_index v)) s
                    else emit_i (IGetLocalW (lv_index v)) s
        | None => CUB
        end
    end.

(** tiny.c:3820-3835: storing into a variable *)
Definition set_ref (r : vref) : km unit :=
  fun s =>
    match r with
    | RGlobal id =>
        match sym_at (k_tbl s) id with
        | Some (mkSym _ _ (SyGlobal i _ _)) => emit_i (ISet (Z.of_nat i)) s
        | _ => CUB
        end
    | RConst _ => CFail s
    | _ =>
        match var_of (k_tbl s) r with
        | Some v => emit_i (ISetLocal (lv_index v)) s
        | None => CUB
        end
    end.

(** The index of field [f] of the structure type [g] (GetFieldTag, tiny.c:1589) *)
Definition field_no (t : tbl) (g : tag) (f : text) : option Z :=
  match g with
  | GSym id =>
      match sym_at t id with
      | Some (mkSym _ _ (SyStruct _ fs)) =>
          match field_index fs f with Some (i, _) => Some (Z.of_nat i) | None => None end
      | _ => None
      end
  | _ => None
  end.

Definition need_field (g : tag) (f : text) : km Z :=
  fun s => match field_no (k_tbl s) g f with
           | Some i => if i <=? 255 then COk i s else CAbort
           | None => CAbort
           end.

Definition binop_of (o : bop) : option binop :=
  match o with
  | BMul => Some OMul | BDiv => Some ODiv | BMod => Some OMod | BAnd => Some OAnd | BOr => Some OOr
  | BShl => Some OShl | BShr => Some OShr | BAdd => Some OAdd | BSub => Some OSub
  | BLte => Some OLte | BGte => Some OGte | BLt => Some OLt | BGt => Some OGt
  | _ => None
  end.

Definition is_one (e : texpr) : bool := match e with TInt 1 => true | _ => false end.

(** tiny.c:3176-3184: the arguments of a call one after the other, counted *)
Fixpoint seq_args (i : Z) (ms : list (km unit)) : km Z :=
  match ms with
  | [] => cret i
  | m :: ms' => if 255 <=? i then cfail else m ;;; seq_args (i + 1) ms'
  end.

(** tiny.c:3259-3261 *)
Fixpoint seq_all (ms : list (km unit)) : km unit :=
  match ms with
  | [] => cret tt
  | m :: ms' => m ;;; seq_all ms'
  end.

(** tiny.c:3241-3256: the initialiser called [f], if any *)
Fixpoint pick (f : text) (names : list text) (ms : list (km unit)) : km unit :=
  match ms with
  | [] => cret tt
  | m :: ms' =>
      match names with
      | [] => cabort
      | nm :: names' => if text_eqb nm f then m else pick f names' ms'
      end
  end.

(** tiny.c:3236-3257: in the order of the fields *)
Fixpoint by_field (fs : list field) (names : list text) (ms : list (km unit)) : km unit :=
  match fs with
  | [] => cret tt
  | f :: fs' => pick (fd_name f) names ms ;;; by_field fs' names ms
  end.

(** tiny.c:3173-3483 [CompileCall], [CompileExpr], with [CompileGetLHS]
    (3108-3171), which it calls on variables, fields and index expressions *)
Fixpoint compile_expr (e : texpr) : km unit :=
  match e with
  | TNull => emit_i IPushNull
  | TBool b => emit_i (if b then IPushTrue else IPushFalse)
  | TInt z | TChar z => push_int z
  | TFloat b => emit_i (IPushFloat b)
  | TStr i => push_string i
  | TId r _ => get_ref r
  | TDot l f _ =>
      k <- need_field (tag_of l) f ;;
      compile_expr l ;;;
      emit_i (IStructGet k)
  | TIndex a i getf _ _ =>
      compile_expr a ;;;
      compile_expr i ;;;
      call_id 2 getf ;;;
      emit_i IGetRetval
  | TCall f args _ =>
      n <- seq_args 0 (map compile_expr args) ;;
      (fun s => match reference_function (k_tbl s) f with
                | Some y => call_sym n (sy_body y) s
                | None => CFail s
                end) ;;;
      emit_i IGetRetval
  | TNew id names args =>
      (fun s =>
         match sym_at (k_tbl s) id with
         | Some (mkSym _ _ (SyStruct true fs)) =>
             ((match names with
               | [] => seq_all (map compile_expr args)
               | _ => by_field fs names (map compile_expr args)
               end) ;;;
              emit_i (IPushStruct (Z.of_nat (length fs) mod 256))) s
         | Some (mkSym _ _ (SyStruct false _)) => CAbort
         | _ => CUB
         end)
  | TCast e _ => compile_expr e
  | TParen e => compile_expr e
  | TBin BAdd l r _ =>
      compile_expr l ;;;
      if is_one r then emit_i IAdd1 else compile_expr r ;;; emit_i (IBin OAdd)
  | TBin BSub l r _ =>
      compile_expr l ;;;
      if is_one r then emit_i ISub1 else compile_expr r ;;; emit_i (IBin OSub)
  | TBin BEq l r _ => compile_expr l ;;; compile_expr r ;;; emit_i IEqu
  | TBin BNe l r _ => compile_expr l ;;; compile_expr r ;;; emit_i IEqu ;;; emit_i INot
  | TBin BLand l r _ =>
      compile_expr l ;;;
      sc <- gen_jump op_gotoz 0 ;;
      compile_expr r ;;;
      ex <- gen_jump op_goto 0 ;;
      h <- here ;;
      patch sc h ;;;
      emit_i IPushFalse ;;;
      h' <- here ;;
      patch ex h'
  | TBin BLor l r _ =>
      compile_expr l ;;;
      nx <- gen_jump op_gotoz 0 ;;
      emit_i IPushTrue ;;;
      ex <- gen_jump op_goto 0 ;;
      h <- here ;;
      patch nx h ;;;
      compile_expr r ;;;
      h' <- here ;;
      patch ex h'
  | TBin o l r _ =>
      match binop_of o with
      | Some op => compile_expr l ;;; compile_expr r ;;; emit_i (IBin op)
      | None => cfail
      end
  | TUn UMinus e _ =>
      match e with
      | TInt z => if z =? - 2^31 then cub else emit_i (IPushInt (- z))
      | _ => compile_expr e ;;; emit_i (IPushInt (-1)) ;;; emit_i (IBin OMul)
      end
  | TUn UNot e _ => compile_expr e ;;; emit_i INot
  | TTern c a b _ =>
      compile_expr c ;;;
      el <- gen_jump op_gotoz 0 ;;
      compile_expr a ;;;
      ex <- gen_jump op_goto 0 ;;
      h <- here ;;
      patch el h ;;;
      compile_expr b ;;;
      h' <- here ;;
      patch ex h'
  end.

(** tiny.c:3173-3200 [CompileCall] as a statement *)
Definition compile_call (f : text) (args : list texpr) : km unit :=
  n <- seq_args 0 (map compile_expr args) ;;
  (fun s => match reference_function (k_tbl s) f with
            | Some y => call_sym n (sy_body y) s
            | None => CFail s
            end).

(** The operator of a compound assignment; [None] for [=] *)
Definition compound_op (op : tokkind) : option binop :=
  match op with
  | PLUSEQUAL => Some OAdd | MINUSEQUAL => Some OSub | STAREQUAL => Some OMul
  | SLASHEQUAL => Some ODiv | PERCENTEQUAL => Some OMod | ANDEQUAL => Some OAnd | OREQUAL => Some OOr
  | _ => None
  end.

(** tiny.c:3759-3818: the value to store *)
Definition compile_rhs (op : tokkind) (l r : texpr) : km unit :=
  match compound_op op with
  | None => compile_expr r
  | Some OAdd => compile_expr l ;;; if is_one r then emit_i IAdd1 else compile_expr r ;;; emit_i (IBin OAdd)
  | Some OSub => compile_expr l ;;; if is_one r then emit_i ISub1 else compile_expr r ;;; emit_i (IBin OSub)
  | Some o => compile_expr l ;;; compile_expr r ;;; emit_i (IBin o)
  end.

(** tiny.c:3740-3862 *)
Definition compile_assign (op : tokkind) (l r : texpr) : km unit :=
  match l with
  | TId v _ =>
      compile_rhs op l r ;;;
      set_ref v ;;;
      kon_tbl (set_var_init v)
  | TDot o f _ =>
      compile_rhs op l r ;;;
      k <- need_field (tag_of o) f ;;
      compile_expr o ;;;
      emit_i (IStructSet k)
  | TIndex a i _ setf _ =>
      compile_expr a ;;;
      compile_expr i ;;;
      compile_rhs op l r ;;;
      match setf with
      | None => cfail
      | Some f => call_id 3 f
      end
  | _ => cfail
  end.

(** tiny.c:3485-3531 [PatchBreakContinue]: the jumps of the break (true) and
    continue (false) statements of the loop body, in the order of its walk; the
    break/continue locations stored in the nodes are the list [ps] *)
Fixpoint patch_all (ps : list (bool * Z)) (brk cont : Z) : km unit :=
  match ps with
  | [] => cret tt
  | (b, pos) :: ps' => patch pos (if b then brk else cont) ;;; patch_all ps' brk cont
  end.

(** tiny.c:3605-3611: the line record; [file] is [state->l.fileName] *)
Definition record_line (file : option text) (line : Z) : km unit :=
  k <- match file with
       | Some f => i <- kon_tbl (intern f) ;; cret (Z.of_nat i)
       | None => cret (-1)
       end ;;
  fun s => COk tt (set_lines s (add_record (k_lines s) (mkPL (plen (k_code s)) k line))).

(** [functionPcs[decl->func.index] = pc] *)
Definition set_fpc (f : nat) (pc : Z) : km nat :=
  fun s => match sym_at (k_tbl s) f with
           | Some (mkSym _ _ (SyFunc i _ locals _)) =>
               if (i <? length (k_fpcs s))%nat
               then COk (length locals) (set_fpcs s (update (k_fpcs s) i (Some pc)))
               else CUB
           | _ => CUB
           end.

(** tiny.c:3621-3623: the statements of a block *)
Fixpoint seq_stmts (ms : list (km (list (bool * Z)))) : km (list (bool * Z)) :=
  match ms with
  | [] => cret []
  | m :: ms' => p <- m ;; q <- seq_stmts ms' ;; cret (p ++ q)
  end.

(** tiny.c:3604-3878 [CompileStatement]; the result lists the break and continue
    jumps left for the enclosing loop *)
Fixpoint compile_stmt (file : option text) (s : tstmt) : km (list (bool * Z)) :=
  record_line file (stmt_line s) ;;;
  match s with
  | TSCall _ f args => compile_call f args ;;; cret []
  | TSBlock _ ss =>
      seq_stmts (map (compile_stmt file) ss)
  | TSConst _ => cret []
  | TSUse _ => cret []
  | TSDecl _ r e => compile_assign DECLARE (TId r (tag_of e)) e ;;; cret []
  | TSAsg _ op l r => compile_assign op l r ;;; cret []
  | TSBad _ => cfail
  | TSProc _ f body =>
      skip <- gen_jump op_goto 0 ;;
      h <- here ;;
      n <- set_fpc f h ;;
      (if (255 <? n)%nat then cfail
       else if (0 <? n)%nat then emit_i (IPushNullN (Z.of_nat n)) else cret tt) ;;;
      compile_stmt file body ;;;
      emit_i IReturn ;;;
      h' <- here ;;
      patch skip h' ;;;
      cret []
  | TSIf _ c a b =>
      compile_expr c ;;;
      skip <- gen_jump op_gotoz 0 ;;
      p <- compile_stmt file a ;;
      match b with
      | Some b' =>
          ex <- gen_jump op_goto 0 ;;
          h <- here ;;
          patch skip h ;;;
          q <- compile_stmt file b' ;;
          h' <- here ;;
          patch ex h' ;;;
          cret (p ++ q)
      | None =>
          h <- here ;;
          patch skip h ;;;
          cret p
      end
  | TSWhile _ c body =>
      cond <- here ;;
      compile_expr c ;;;
      skip <- gen_jump op_gotoz 0 ;;
      p <- compile_stmt file body ;;
      gen_jump op_goto cond ;;;
      h <- here ;;
      patch skip h ;;;
      patch_all p h cond ;;;
      cret []
  | TSFor _ init c step body =>
      compile_stmt file init ;;;
      cond <- here ;;
      compile_expr c ;;;
      skip <- gen_jump op_gotoz 0 ;;
      p <- compile_stmt file body ;;
      stp <- here ;;
      compile_stmt file step ;;;
      gen_jump op_goto cond ;;;
      h <- here ;;
      patch skip h ;;;
      patch_all p h stp ;;;
      cret []
  | TSReturn _ (Some e) => compile_expr e ;;; emit_i IReturnValue ;;; cret []
  | TSReturn _ None => emit_i IReturn ;;; cret []
  | TSBreak _ => p <- gen_jump op_goto 0 ;; cret [(true, p)]
  | TSContinue _ => p <- gen_jump op_goto 0 ;; cret [(false, p)]
  end.

(** tiny.c:3880-3884 [CompileProgram] *)
Fixpoint compile_all (file : option text) (ss : list tstmt) : km unit :=
  match ss with
  | [] => cret tt
  | s :: ss' => compile_stmt file s ;;; compile_all file ss'
  end.

(** TRealloc of a table to [n] entries; new ones are not initialised *)
Definition resize {A} (l : list (option A)) (n : nat) : list (option A) :=
  firstn n l ++ repeat None (n - length l).

(** tiny.c:3916-3924 [BuildForeignFunctions] *)
Fixpoint build_foreign (ss : list sym) (f : list (option nat)) : option (list (option nat)) :=
  match ss with
  | [] => Some f
  | mkSym _ _ (SyForeign i _ _ _ callee) :: ss' =>
      if (i <? length f)%nat then build_foreign ss' (update f i (Some callee)) else None
  | _ :: ss' => build_foreign ss' f
  end.

(** tiny.c:3927-3933: an earlier program's TINY_OP_HALT is dropped *)
Definition drop_halt (c : program) : program :=
  match rev c with
  | 43 :: r => rev r
  | _ => c
  end.

(** tiny.c:3926-3961 [CompileState] *)
Definition compile_state (file : option text) (ss : list stmt) : km (list tstmt) :=
  h <- (fun s => COk (k_hist s) s) ;;
  (fun s => COk tt (set_code s (drop_halt (k_code s)))) ;;;
  ts <- kon_tbl (resolve_all ss) ;;
  (fun s => COk tt (set_fpcs s (if (0 <? tb_nfun (k_tbl s))%nat
                                then resize (k_fpcs s) (tb_nfun (k_tbl s)) else k_fpcs s))) ;;;
  (fun s => COk tt (set_ftab s (if (0 <? tb_nforeign (k_tbl s))%nat
                                then resize (k_ftab s) (tb_nforeign (k_tbl s)) else k_ftab s))) ;;;
  (fun s => match build_foreign (tb_syms (k_tbl s)) (k_ftab s) with
            | Some f => COk tt (set_ftab s f)
            | None => CUB
            end) ;;;
  compile_all file ts ;;;
  emit_i IHalt ;;;
  (fun s => COk tt (set_hist s (h ++ ts))) ;;;
  cret ts.

(** tiny.c:3888-3912 [CheckInitialized] on the symbols this compile added *)
Definition sym_initialized (s : sym) : bool :=
  match sy_body s with
  | SyGlobal _ b _ => b
  | SyFunc _ _ locals _ => forallb lv_init locals
  | _ => true
  end.

(** A [use] macro (tiny.h Tiny_MacroFunction): host code working on the state;
    [false] = failure *)
Definition macro := list text -> option text -> kst -> cres kst bool.

(** tiny.c:4007-4047: the [use] statements; only top-level ones are applied.
    More than 128 arguments overrun the array (the check is off by one). *)
Fixpoint run_uses (mods : text -> macro) (ss : list stmt) : km unit :=
  match ss with
  | [] => cret tt
  | SUse _ m args asName :: ss' =>
      (fun s =>
         if existsb (fun y => match sy_body y with SyModule => text_eqb (sy_name y) m | _ => false end)
                    (tb_syms (k_tbl s))
         then if (128 <? length args)%nat then CUB
              else (b <- mods m args asName ;; if (b : bool) then cret tt else cfail) s
         else CFail s) ;;;
      run_uses mods ss'
  | _ :: ss' => run_uses mods ss'
  end.

Definition slice {A} (l : list A) (i j : nat) : list A := firstn (j - i) (skipn i l).

Definition struct_defined (s : sym) : bool :=
  match sy_body s with SyStruct d _ => d | _ => true end.

(** tiny.c:3996-4062, between setjmp and the clean-up; [fuel] bounds the
    recursion of the parser *)
Definition compile_body (fuel : nat) (mods : text -> macro) (file : option text) (src : text)
  : km (list tstmt) :=
  first <- (fun s => COk (length (tb_syms (k_tbl s))) s) ;;
  ss <- (fun s => match parse_program fuel (start_parse (k_tbl s) src) with
                  | COk a p => COk a (set_tbl s (ps_tbl p))
                  | CFail p => CFail (set_tbl s (ps_tbl p))
                  | CAbort => CAbort | CUB => CUB | CHang => CHang | CFuel => CFuel
                  end) ;;
  last <- (fun s => COk (length (tb_syms (k_tbl s))) s) ;;
  run_uses mods ss ;;;
  (fun s => if forallb struct_defined (slice (tb_syms (k_tbl s)) first last)
            then COk tt s else CFail s) ;;;
  ts <- compile_state file ss ;;
  (fun s => if forallb sym_initialized (slice (tb_syms (k_tbl s)) first last)
            then COk tt s else CFail s) ;;;
  cret ts.

(** tiny.c:3976-3994, the clean-up after a longjmp: the symbols added are
    destroyed, the program is cut back to its length (the bytes below it are
    whatever the failed compile left there) *)
Definition roll_back (s0 s : kst) : kst :=
  let t := set_syms (k_tbl s) (firstn (length (tb_syms (k_tbl s0))) (tb_syms (k_tbl s))) in
  let buffer := k_code s ++ skipn (length (k_code s)) (k_code s0) in
  mkKst t (firstn (length (k_code s0)) buffer) (k_fpcs s) (k_ftab s) (k_lines s) (k_hist s).

(** tiny.c:3963-4081 [Tiny_CompileString]; the trees are returned only to state
    theorems about them *)
Definition compile_string (fuel : nat) (mods : text -> macro) (file : option text) (src : text)
  : km (list tstmt) :=
  fun s0 =>
    match compile_body fuel mods file src s0 with
    | COk ts s => COk ts s
    | CFail s => CFail (roll_back s0 s)
    | CAbort => CAbort | CUB => CUB | CHang => CHang | CFuel => CFuel
    end.

(** ** The machine that runs the state (detail.h:47-66) *)
Definition init_kst : kst := mkKst init_tbl [] [] [] [] [].

Definition machine_of {H} (s : kst) (callees : nat -> list value -> fprog H) (nat_props : natives H) : machine H :=
  mkMachine H (k_code s) (tb_strings (k_tbl s))
    (map (fun o => match o with Some pc => pc | None => -1 end) (k_fpcs s))
    (map (fun o => match o with Some c => callees c | None => fun _ => FUB end) (k_ftab s))
    (tb_nglob (k_tbl s)) nat_props (Some stack_size) call_depth.
