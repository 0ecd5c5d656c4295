(** * What a program means: a direct interpreter of the typed syntax tree

    This is the specification the compiler and the VM are compared with.  It
    knows nothing of bytecode, program counters or frames: expressions are
    evaluated, statements executed, functions called by evaluating their bodies
    on their arguments.  Two resources of the implementation are visible to
    programs and therefore part of it: at most [p_depth] calls may be active
    (beyond it the process aborts), and at most [p_room] stack slots may be in
    use - one per argument, local variable and pending operand - beyond which
    the behaviour is undefined.  [h] is the number of slots in use.

    [UB] means that the language gives no meaning (division by zero, a missing
    argument, a stack that is too small, ...).  Two more cases are [UB] here
    because the compiler does not translate them correctly: adding or subtracting
    the literal 1 when the other operand is a float ([float_plus_one_refuted]),
    and string constants beyond the first 256 ([push_string_refuted]).
    Integer literals are 32-bit, float literals are 64-bit patterns. *)
From Verif Require Import Base Token Values Heap Code Syntax Symbols VM.
Local Open Scope nat_scope.
Local Open Scope outcome_scope.

(** The state all code shares *)
Record sst (H : Type) := mkS { s_globs : list value; s_heap : heap; s_next : nat; s_host : H }.
Arguments mkS {H}. Arguments s_globs {H}. Arguments s_heap {H}. Arguments s_next {H}. Arguments s_host {H}.

(** The variables of the function being executed; [None] outside functions *)
Record fenv := mkEnv { e_args : list value; e_locals : list value }.

Inductive signal := Go | Brk | Cont | Ret (v : value).

Record prog (H : Type) := mkProg {
  p_tbl : tbl;                                  (* what the names mean *)
  p_body : nat -> option tstmt;                 (* the bodies of the functions *)
  p_callee : nat -> list value -> fprog H;      (* the foreign functions *)
  p_room : nat;
  p_depth : nat
}.
Arguments p_tbl {H}. Arguments p_body {H}. Arguments p_callee {H}. Arguments p_room {H}. Arguments p_depth {H}.

Section Sem.
Context {H : Type} (P : prog H).
Notation sst := (sst H).

Definition set_globs (s : sst) g := mkS g (s_heap s) (s_next s) (s_host s).
Definition set_heap (s : sst) hp := mkS (s_globs s) hp (s_next s) (s_host s).
Definition set_host (s : sst) (w : H) : sst := mkS (s_globs s) (s_heap s) (s_next s) w.
Definition new_obj (s : sst) (b : obody) : nat * sst :=
  (s_next s, mkS (s_globs s) (mkObj (s_next s) false b :: s_heap s) (S (s_next s)) (s_host s)).

(** A value put on the stack when [h] slots are in use *)
Definition keep (h : nat) (v : value) (s : sst) : outcome (value * sst) :=
  if h <? p_room P then Ok (v, s) else UB.

Definition const_val (c : constv) : outcome value :=
  match c with
  | KBool b => Ok (VBool b)
  | KInt z => Ok (VInt (wrap32 z))
  | KFloat b => Ok (VFloat (b mod 2^64))
  | KStr i => if i <? 256 then of_option (option_map VCStr (nth_error (tb_strings (p_tbl P)) i)) else UB
  end.

Definition global_index (id : nat) : option nat :=
  match sym_at (p_tbl P) id with Some (mkSym _ _ (SyGlobal i _ _)) => Some i | _ => None end.

Definition read_var (fe : fenv) (r : vref) (s : sst) : outcome value :=
  match r with
  | RGlobal id => match global_index id with Some i => of_option (nth_error (s_globs s) i) | None => UB end
  | RConst id => match sym_at (p_tbl P) id with
                 | Some (mkSym _ _ (SyConst c)) => const_val c
                 | _ => UB end
  | RLocal _ i => of_option (nth_error (e_locals fe) i)
  | RArg _ i => of_option (nth_error (e_args fe) i)
  end.

Definition write_var (fe : fenv) (r : vref) (v : value) (s : sst) : outcome (fenv * sst) :=
  match r with
  | RGlobal id =>
      match global_index id with
      | Some i => if i <? length (s_globs s) then Ok (fe, set_globs s (update (s_globs s) i v)) else UB
      | None => UB
      end
  | RConst _ => UB
  | RLocal _ i => if i <? length (e_locals fe)
                  then Ok (mkEnv (e_args fe) (update (e_locals fe) i v), s) else UB
  | RArg _ i => if i <? length (e_args fe)
                then Ok (mkEnv (update (e_args fe) i v) (e_locals fe), s) else UB
  end.

(** The fields of a structure type *)
Definition fields_of (id : nat) : option (list field) :=
  match sym_at (p_tbl P) id with Some (mkSym _ _ (SyStruct _ fs)) => Some fs | _ => None end.

Definition field_number (g : tag) (f : text) : option nat :=
  match g with
  | GSym id => match fields_of id with
               | Some fs => option_map fst (field_index fs f)
               | None => None end
  | _ => None
  end.

Definition get_field (v : value) (k : nat) (s : sst) : outcome value :=
  match v with
  | VStruct id =>
      match hget (s_heap s) id with
      | Some (mkObj _ _ (BStruct fs)) => match nth_error fs k with Some x => Ok x | None => Abort end
      | _ => UB
      end
  | _ => Abort
  end.

Definition put_field (o : value) (k : nat) (v : value) (s : sst) : outcome sst :=
  match o with
  | VStruct id =>
      match hget (s_heap s) id with
      | Some (mkObj _ _ (BStruct fs)) =>
          if k <? length fs
          then Ok (set_heap s (hset (s_heap s) id (fun x => mkObj (o_id x) (o_mark x) (BStruct (update fs k v)))))
          else Abort
      | _ => UB
      end
  | _ => Abort
  end.

(** The operators that evaluate both sides *)
Definition operate (o : bop) (a b : value) (s : sst) : outcome value :=
  match o with
  | BMul => do_bin OMul a b | BDiv => do_bin ODiv a b | BMod => do_bin OMod a b
  | BAnd => do_bin OAnd a b | BOr => do_bin OOr a b | BShl => do_bin OShl a b | BShr => do_bin OShr a b
  | BAdd => do_bin OAdd a b | BSub => do_bin OSub a b
  | BLte => do_bin OLte a b | BGte => do_bin OGte a b | BLt => do_bin OLt a b | BGt => do_bin OGt a b
  | BEq => r <- values_equal (s_heap s) a b ;; Ok (VBool r)
  | BNe => r <- values_equal (s_heap s) a b ;; Ok (VBool (negb r))
  | BLand | BLor => UB
  end.

(** See the header: [x + 1], [x - 1] *)
Definition step_of_float (o : bop) (r : texpr) (a : value) : bool :=
  match o, r, a with
  | BAdd, TInt 1, VFloat _ | BSub, TInt 1, VFloat _ => true
  | _, _, _ => false
  end.

Definition negate (v : value) : outcome value := do_bin OMul v (VInt (-1)).

Definition is_true (v : value) : outcome bool :=
  match v with VBool b => Ok b | _ => Abort end.

(** Evaluate one after the other; each result occupies a slot. *)
Fixpoint eval_list (ms : list (nat -> sst -> outcome (value * sst))) (h : nat) (s : sst)
  : outcome (list value * sst) :=
  match ms with
  | [] => Ok ([], s)
  | m :: ms' =>
      ' (v, s1) <- m h s ;;
      ' (vs, s2) <- eval_list ms' (S h) s1 ;;
      Ok (v :: vs, s2)
  end.

(** The initialiser called [f] *)
Fixpoint named_init {A} (f : text) (names : list text) (ms : list A) : option A :=
  match names, ms with
  | nm :: names', m :: ms' => if text_eqb nm f then Some m else named_init f names' ms'
  | _, _ => None
  end.

(** All initialisers in the order of the fields, if each field has one *)
Fixpoint inits {A} (fs : list field) (names : list text) (ms : list A) : option (list A) :=
  match fs with
  | [] => Some []
  | f :: fs' =>
      match named_init (fd_name f) names ms, inits fs' names ms with
      | Some m, Some l => Some (m :: l)
      | _, _ => None
      end
  end.

Definition ordered_inits {A} (fs : list field) (names : list text) (ms : list A) : option (list A) :=
  match names with
  | [] => if length ms =? length fs then Some ms else None
  | _ => inits fs names ms
  end.

(** ** Foreign functions *)
Section Foreign.
(** [call h f args s]: call the Tiny function number [f] when [h] slots are in
    use ([args] not among them) *)
Variable call : nat -> Z -> list value -> sst -> outcome (value * sst).

Fixpoint run_foreign (h : nat) (p : fprog H) (s : sst) : outcome (value * sst) :=
  match p with
  | FRet v => Ok (v, s)
  | FAbort => Abort
  | FUB => UB
  | FHost k => run_foreign h (k (s_host s)) s
  | FSetHost w k => run_foreign h k (set_host s w)
  | FObj v k =>
      match ref_of v with
      | Some id => match hget (s_heap s) id with
                   | Some o => run_foreign h (k (o_body o)) s
                   | None => UB
                   end
      | None => UB
      end
  | FNewStr x k => let '(id, s') := new_obj s (BStr x) in run_foreign h (k (VStr id)) s'
  | FNewNative a pr k => let '(id, s') := new_obj s (BNative a pr) in run_foreign h (k (VNative id)) s'
  | FGetGlobal i k =>
      if ((0 <=? i) && (i <? Z.of_nat (tb_nglob (p_tbl P))))%Z
      then match nth_error (s_globs s) (Z.to_nat i) with Some v => run_foreign h (k v) s | None => UB end
      else Abort
  | FSetGlobal i v k =>
      if ((0 <=? i) && (i <? Z.of_nat (tb_nglob (p_tbl P))))%Z
      then if Z.to_nat i <? length (s_globs s)
           then run_foreign h k (set_globs s (update (s_globs s) (Z.to_nat i) v)) else UB
      else Abort
  | FCall f args k => ' (v, s') <- call h f args s ;; run_foreign h (k v) s'
  end.
End Foreign.

(** The function with number [f] *)
Definition function_no (f : Z) : option sym :=
  find (fun y => match sy_body y with SyFunc i _ _ _ => (Z.of_nat i =? f)%Z | _ => false end)
       (tb_syms (p_tbl P)).

(** ** Expressions and statements, given how functions are called *)
Section Body.
(** [enter d h y args s]: the call of function [y], [d] calls being active and
    [h] slots in use, [args] among them *)
Variable enter : nat -> nat -> sym -> list value -> sst -> outcome (value * sst).

(** A callback from the host *)
Definition call_back (d h : nat) (f : Z) (args : list value) (s : sst) : outcome (value * sst) :=
  if (f <? 0)%Z then Abort
  else if h + length args <=? p_room P then
    match function_no f with
    | Some y => enter d (h + length args) y args s
    | None => UB
    end
  else UB.

(** A call of [y]; its arguments are on top of the [h] slots in use *)
Definition call_sym (d h : nat) (y : sym) (args : list value) (s : sst) : outcome (value * sst) :=
  match sy_body y with
  | SyFunc _ _ _ _ => enter d h y args s
  | SyForeign _ _ _ _ c => run_foreign (call_back d) h (p_callee P c args) s
  | _ => UB
  end.

Definition call_id (d h : nat) (id : nat) (args : list value) (s : sst) : outcome (value * sst) :=
  match sym_at (p_tbl P) id with Some y => call_sym d h y args s | None => UB end.

Fixpoint eval (d : nat) (fe : fenv) (e : texpr) (h : nat) (s : sst) : outcome (value * sst) :=
  match e with
  | TNull => keep h VNull s
  | TBool b => keep h (VBool b) s
  | TChar z | TInt z => keep h (VInt (wrap32 z)) s
  | TFloat b => keep h (VFloat (b mod 2^64)) s
  | TStr i => v <- const_val (KStr i) ;; keep h v s
  | TId r _ => v <- read_var fe r s ;; keep h v s
  | TCall f args _ =>
      ' (vs, s1) <- eval_list (map (eval d fe) args) h s ;;
      match reference_function (p_tbl P) f with
      | Some y => ' (v, s2) <- call_sym d (h + length vs) y vs s1 ;; keep h v s2
      | None => UB
      end
  | TIndex a i getf _ _ =>
      ' (x, s1) <- eval d fe a h s ;;
      ' (y, s2) <- eval d fe i (S h) s1 ;;
      ' (v, s3) <- call_id d (S (S h)) getf [x; y] s2 ;;
      keep h v s3
  | TParen e | TCast e _ => eval d fe e h s
  | TDot l f _ =>
      ' (v, s1) <- eval d fe l h s ;;
      match field_number (tag_of l) f with
      | Some k => x <- get_field v k s1 ;; Ok (x, s1)
      | None => UB
      end
  | TNew id names args =>
      match fields_of id with
      | Some fs =>
          match ordered_inits fs names (map (eval d fe) args) with
          | Some ms =>
              ' (vs, s1) <- eval_list ms h s ;;
              match vs with
              | [] => Abort
              | _ => let '(o, s2) := new_obj s1 (BStruct vs) in Ok (VStruct o, s2)
              end
          | None => UB
          end
      | None => UB
      end
  | TBin BLand l r _ =>
      ' (v, s1) <- eval d fe l h s ;;
      b <- is_true v ;;
      if b then eval d fe r h s1 else keep h (VBool false) s1
  | TBin BLor l r _ =>
      ' (v, s1) <- eval d fe l h s ;;
      b <- is_true v ;;
      if b then keep h (VBool true) s1 else eval d fe r h s1
  | TBin o l r _ =>
      ' (a, s1) <- eval d fe l h s ;;
      if step_of_float o r a then UB
      else
        ' (b, s2) <- eval d fe r (S h) s1 ;;
        v <- operate o a b s2 ;;
        Ok (v, s2)
  | TUn UMinus (TInt z) _ => keep h (VInt (wrap32 (- z))) s
  | TUn UMinus e _ =>
      ' (v, s1) <- eval d fe e h s ;;
      ' (_, _) <- keep (S h) VNull s1 ;;
      x <- negate v ;;
      Ok (x, s1)
  | TUn UNot e _ =>
      ' (v, s1) <- eval d fe e h s ;;
      b <- is_true v ;;
      Ok (VBool (negb b), s1)
  | TTern c a b _ =>
      ' (v, s1) <- eval d fe c h s ;;
      t <- is_true v ;;
      if t then eval d fe a h s1 else eval d fe b h s1
  end.

(** The operator of a compound assignment *)
Definition assign_op (op : tokkind) : option bop :=
  match op with
  | PLUSEQUAL => Some BAdd | MINUSEQUAL => Some BSub | STAREQUAL => Some BMul
  | SLASHEQUAL => Some BDiv | PERCENTEQUAL => Some BMod | ANDEQUAL => Some BAnd | OREQUAL => Some BOr
  | _ => None
  end.

(** The value an assignment stores *)
Definition assigned (d : nat) (fe : fenv) (op : tokkind) (l r : texpr) (h : nat) (s : sst)
  : outcome (value * sst) :=
  match assign_op op with
  | None => eval d fe r h s
  | Some o =>
      ' (a, s1) <- eval d fe l h s ;;
      if step_of_float o r a then UB
      else
        ' (b, s2) <- eval d fe r (S h) s1 ;;
        v <- operate o a b s2 ;;
        Ok (v, s2)
  end.

(** A store into a field evaluates the value before the structure; [a[i] op= e]
    evaluates [a] and [i] twice. *)
Definition assign (d h : nat) (fe : fenv) (op : tokkind) (l r : texpr) (s : sst)
  : outcome (fenv * sst) :=
  match l with
  | TId v _ =>
      ' (x, s1) <- assigned d fe op l r h s ;;
      write_var fe v x s1
  | TDot o f _ =>
      ' (x, s1) <- assigned d fe op l r h s ;;
      ' (ov, s2) <- eval d fe o (S h) s1 ;;
      match field_number (tag_of o) f with
      | Some k => s3 <- put_field ov k x s2 ;; Ok (fe, s3)
      | None => UB
      end
  | TIndex a i _ setf _ =>
      ' (av, s1) <- eval d fe a h s ;;
      ' (iv, s2) <- eval d fe i (S h) s1 ;;
      ' (x, s3) <- assigned d fe op l r (S (S h)) s2 ;;
      match setf with
      | Some f => ' (_, s4) <- call_id d (S (S (S h))) f [av; iv; x] s3 ;; Ok (fe, s4)
      | None => UB
      end
  | _ => UB
  end.

(** [step] runs between two turns; [n] bounds the turns *)
Fixpoint repeat_while (n : nat) (cond : fenv -> sst -> outcome (bool * sst))
  (body step : fenv -> sst -> outcome (signal * fenv * sst)) (fe : fenv) (s : sst)
  : outcome (signal * fenv * sst) :=
  match n with
  | O => Fuel
  | S n' =>
      ' (b, s1) <- cond fe s ;;
      if (b : bool) then
        ' (sg, fe1, s2) <- body fe s1 ;;
        match sg with
        | Brk => Ok (Go, fe1, s2)
        | Ret v => Ok (Ret v, fe1, s2)
        | Go | Cont =>
            ' (sg', fe2, s3) <- step fe1 s2 ;;
            match sg' with
            | Go => repeat_while n' cond body step fe2 s3
            | Ret v => Ok (Ret v, fe2, s3)
            | _ => UB
            end
        end
      else Ok (Go, fe, s1)
  end.

Fixpoint seq (ms : list (fenv -> sst -> outcome (signal * fenv * sst))) (fe : fenv) (s : sst)
  : outcome (signal * fenv * sst) :=
  match ms with
  | [] => Ok (Go, fe, s)
  | m :: ms' =>
      ' (sg, fe1, s1) <- m fe s ;;
      match sg with Go => seq ms' fe1 s1 | _ => Ok (sg, fe1, s1) end
  end.

Definition eval_cond (d h : nat) (c : texpr) (fe : fenv) (s : sst) : outcome (bool * sst) :=
  ' (v, s1) <- eval d fe c h s ;; b <- is_true v ;; Ok (b, s1).

(** [infun]: whether a [return] has a function to return from *)
Fixpoint exec (n : nat) (infun : bool) (d h : nat) (st : tstmt) (fe : fenv) (s : sst)
  : outcome (signal * fenv * sst) :=
  match st with
  | TSCall _ f args =>
      ' (vs, s1) <- eval_list (map (eval d fe) args) h s ;;
      match reference_function (p_tbl P) f with
      | Some y => ' (_, s2) <- call_sym d (h + length vs) y vs s1 ;; Ok (Go, fe, s2)
      | None => UB
      end
  | TSDecl _ r e =>
      ' (v, s1) <- eval d fe e h s ;;
      ' (fe1, s2) <- write_var fe r v s1 ;;
      Ok (Go, fe1, s2)
  | TSAsg _ op l r =>
      ' (fe1, s1) <- assign d h fe op l r s ;; Ok (Go, fe1, s1)
  | TSConst _ | TSUse _ | TSProc _ _ _ => Ok (Go, fe, s)
  | TSBad _ => UB
  | TSBlock _ ss => seq (map (exec n infun d h) ss) fe s
  | TSIf _ c a b =>
      ' (t, s1) <- eval_cond d h c fe s ;;
      if t then exec n infun d h a fe s1
      else match b with Some b' => exec n infun d h b' fe s1 | None => Ok (Go, fe, s1) end
  | TSWhile _ c body =>
      repeat_while n (eval_cond d h c) (exec n infun d h body) (fun fe s => Ok (Go, fe, s)) fe s
  | TSFor _ init c step body =>
      ' (sg, fe1, s1) <- exec n infun d h init fe s ;;
      match sg with
      | Go => repeat_while n (eval_cond d h c) (exec n infun d h body) (exec n infun d h step) fe1 s1
      | Ret v => Ok (Ret v, fe1, s1)
      | _ => UB
      end
  | TSReturn _ None => if infun then Ok (Ret VNull, fe, s) else UB
  | TSReturn _ (Some e) =>
      if infun then ' (v, s1) <- eval d fe e h s ;; Ok (Ret v, fe, s1) else UB
  | TSBreak _ => Ok (Brk, fe, s)
  | TSContinue _ => Ok (Cont, fe, s)
  end.
End Body.

(** A call: [n] bounds the nesting of calls and the turns of loops *)
Fixpoint enter_fn (n : nat) (d h : nat) (y : sym) (args : list value) (s : sst)
  : outcome (value * sst) :=
  match n with
  | O => Fuel
  | S n' =>
      match sy_body y, p_body P (sy_id y) with
      | SyFunc _ params locals _, Some body =>
          if length args =? length params then
            if d <? p_depth P then
              if h + length locals <=? p_room P then
                ' (sg, _, s1) <- exec (enter_fn n') n' true (S d) (h + length locals) body
                                   (mkEnv args (repeat VNull (length locals))) s ;;
                match sg with
                | Go => Ok (VNull, s1)
                | Ret v => Ok (v, s1)
                | _ => UB
                end
              else UB
            else Abort
          else UB
      | _, _ => UB
      end
  end.

(** The statements of a program, outside functions *)
Definition exec_top (n : nat) (ss : list tstmt) (s : sst) : outcome sst :=
  ' (sg, _, s1) <- seq (map (exec (enter_fn n) n false 0 0) ss) (mkEnv [] []) s ;;
  match sg with Go => Ok s1 | _ => UB end.

(** A fresh start: every global variable is null *)
Definition start_sst (w : H) : sst := mkS (repeat VNull (tb_nglob (p_tbl P))) [] 0 w.
End Sem.
