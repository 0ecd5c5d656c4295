(** * The compiler's symbol table: /repo/tiny/src/tiny.c:692-1096 and 1502-1605

    Every operation of the compiler is a function from its state to a
    [cres]: success, a reported compile error (the state is kept: tiny.c
    longjmps out and the caller goes on using it), a failed [assert], undefined
    behaviour, a lexer that does not return, or exhausted recursion fuel.
    Symbols are named by a number that is never reused, so that following a
    pointer to a destroyed symbol is recognised ([CUB]).  The text of error
    messages and [sym->pos] are left out. *)
From Verif Require Import Base Token Values Strings Syntax.
Local Open Scope nat_scope.

Inductive cres (S A : Type) : Type :=
| COk (a : A) (s : S)
| CFail (s : S)
| CAbort
| CUB
| CHang
| CFuel.
Arguments COk {S A} a s.
Arguments CFail {S A} s.
Arguments CAbort {S A}.
Arguments CUB {S A}.
Arguments CHang {S A}.
Arguments CFuel {S A}.

Definition cbind {S A B} (m : S -> cres S A) (f : A -> S -> cres S B) : S -> cres S B :=
  fun s => match m s with
           | COk a s' => f a s'
           | CFail s' => CFail s'
           | CAbort => CAbort
           | CUB => CUB
           | CHang => CHang
           | CFuel => CFuel
           end.

Declare Scope cm_scope.
Delimit Scope cm_scope with cm.
Notation "x <- m ;; k" := (cbind m (fun x => k))
  (at level 61, m at next level, right associativity) : cm_scope.
Notation "' p <- m ;; k" := (cbind m (fun x => match x with p => k end))
  (at level 61, p pattern, m at next level, right associativity) : cm_scope.
Notation "m ;;; k" := (cbind m (fun _ => k))
  (at level 61, right associativity) : cm_scope.

Definition cret {S A} (a : A) : S -> cres S A := fun s => COk a s.
Definition cfail {S A} : S -> cres S A := fun s => CFail s.
Definition cabort {S A} : S -> cres S A := fun _ => CAbort.
Definition cub {S A} : S -> cres S A := fun _ => CUB.
Definition cget {S} : S -> cres S S := fun s => COk s s.
Definition cput {S} (s' : S) : S -> cres S unit := fun _ => COk tt s'.

(** ** Symbols (tiny.h:464-541) *)

(** TINY_SYM_LOCAL; [lv_tag = None] is the uninitialised [var.tag] *)
Record lvar := mkLv {
  lv_name : text; lv_index : Z; lv_scope : nat; lv_ended : bool; lv_init : bool; lv_tag : option tag }.

(** TINY_SYM_FIELD *)
Record field := mkField { fd_name : text; fd_tag : tag }.

(** the value of a TINY_SYM_CONST; its tag is the kind *)
Inductive constv := KBool (b : bool) | KInt (z : Z) | KFloat (bits : Z) | KStr (i : nat).

Inductive symbody :=
| SyGlobal (index : nat) (init : bool) (t : option tag)
| SyConst (c : constv)
| SyFunc (index : nat) (args locals : list lvar) (ret : option tag)
| SyForeign (index : nat) (args : list tag) (varargs : bool) (ret : tag) (callee : nat)
| SyStruct (defined : bool) (fields : list field)
| SyForeignTag
| SyNullable (inner : tag)
| SyModule.

Record sym := mkSym { sy_id : nat; sy_name : text; sy_body : symbody }.

(** The symbol side of [Tiny_State] (detail.h:47-73) *)
Record tbl := mkTbl {
  tb_syms : list sym;       (* globalSymbols *)
  tb_next : nat;            (* next identity *)
  tb_strings : list text;   (* strings *)
  tb_nglob : nat;           (* numGlobalVars *)
  tb_nfun : nat;            (* numFunctions *)
  tb_nforeign : nat;        (* numForeignFunctions *)
  tb_scope : nat;           (* currScope *)
  tb_func : option nat      (* currFunc *)
}.

Definition set_syms (t : tbl) s := mkTbl s (tb_next t) (tb_strings t) (tb_nglob t) (tb_nfun t) (tb_nforeign t) (tb_scope t) (tb_func t).
Definition set_strings (t : tbl) s := mkTbl (tb_syms t) (tb_next t) s (tb_nglob t) (tb_nfun t) (tb_nforeign t) (tb_scope t) (tb_func t).
Definition set_scope (t : tbl) n := mkTbl (tb_syms t) (tb_next t) (tb_strings t) (tb_nglob t) (tb_nfun t) (tb_nforeign t) n (tb_func t).
Definition set_func (t : tbl) f := mkTbl (tb_syms t) (tb_next t) (tb_strings t) (tb_nglob t) (tb_nfun t) (tb_nforeign t) (tb_scope t) f.
Definition set_nglob (t : tbl) n := mkTbl (tb_syms t) (tb_next t) (tb_strings t) n (tb_nfun t) (tb_nforeign t) (tb_scope t) (tb_func t).
Definition set_nfun (t : tbl) n := mkTbl (tb_syms t) (tb_next t) (tb_strings t) (tb_nglob t) n (tb_nforeign t) (tb_scope t) (tb_func t).
Definition set_nforeign (t : tbl) n := mkTbl (tb_syms t) (tb_next t) (tb_strings t) (tb_nglob t) (tb_nfun t) n (tb_scope t) (tb_func t).

Definition init_tbl : tbl := mkTbl [] 0 [] 0 0 0 0 None.

(** Following a symbol pointer *)
Definition sym_at (t : tbl) (id : nat) : option sym :=
  find (fun s => sy_id s =? id) (tb_syms t).

Definition put_body (t : tbl) (id : nat) (b : symbody) : tbl :=
  set_syms t (map (fun s => if sy_id s =? id then mkSym id (sy_name s) b else s) (tb_syms t)).

(** tiny.c:721-729 [Symbol_create] followed by the push on [globalSymbols] *)
Definition new_sym (t : tbl) (name : text) (b : symbody) : nat * tbl :=
  (tb_next t,
   mkTbl (tb_syms t ++ [mkSym (tb_next t) name b]) (S (tb_next t)) (tb_strings t)
         (tb_nglob t) (tb_nfun t) (tb_nforeign t) (tb_scope t) (tb_func t)).

(** ** Scopes and variables *)

(** tiny.c:765 [OpenScope] *)
Definition open_scope (t : tbl) : tbl := set_scope t (S (tb_scope t)).

Definition end_scope (n : nat) (v : lvar) : lvar :=
  if lv_scope v =? n
  then mkLv (lv_name v) (lv_index v) (lv_scope v) true (lv_init v) (lv_tag v) else v.

(** tiny.c:767-781 [CloseScope] *)
Definition close_scope (t : tbl) : cres tbl unit :=
  match tb_func t with
  | None => COk tt (set_scope t (pred (tb_scope t)))
  | Some f =>
      match sym_at t f with
      | Some (mkSym _ _ (SyFunc i args locals ret)) =>
          COk tt (set_scope (put_body t f (SyFunc i args (map (end_scope (tb_scope t)) locals) ret))
                            (pred (tb_scope t)))
      | _ => CUB
      end
  end.

(** first element satisfying [p], with its position *)
Fixpoint find_index {A} (p : A -> bool) (l : list A) (i : nat) : option nat :=
  match l with
  | [] => None
  | x :: l' => if p x then Some i else find_index p l' (S i)
  end.

Definition open_named (name : text) (v : lvar) : bool :=
  negb (lv_ended v) && text_eqb (lv_name v) name.
Definition named (name : text) (v : lvar) : bool := text_eqb (lv_name v) name.

Definition is_value_sym (name : text) (s : sym) : bool :=
  match sy_body s with
  | SyGlobal _ _ _ | SyConst _ => text_eqb (sy_name s) name
  | _ => false
  end.

Definition value_ref (s : sym) : vref :=
  match sy_body s with SyConst _ => RConst (sy_id s) | _ => RGlobal (sy_id s) end.

(** tiny.c:808-816 *)
Definition global_ref (t : tbl) (name : text) : option vref :=
  option_map value_ref (find (is_value_sym name) (tb_syms t)).

(** tiny.c:783-820 [ReferenceVariable] *)
Definition reference_variable (name : text) (t : tbl) : cres tbl (option vref) :=
  match tb_func t with
  | None => COk (global_ref t name) t
  | Some f =>
      match sym_at t f with
      | Some (mkSym _ _ (SyFunc _ args locals _)) =>
          match find_index (open_named name) locals 0 with
          | Some i => COk (Some (RLocal f i)) t
          | None =>
              match find_index (named name) args 0 with
              | Some i => COk (Some (RArg f i)) t
              | None => COk (global_ref t name) t
              end
          end
      | _ => CUB
      end
  end.

Local Open Scope cm_scope.

(** tiny.c:822-844 [DeclareGlobalVar] *)
Definition declare_global (name : text) : tbl -> cres tbl vref :=
  r <- reference_variable name ;;
  match r with
  | Some (RGlobal _) | Some (RConst _) => cfail
  | _ => fun t =>
      let '(id, t1) := new_sym t name (SyGlobal (tb_nglob t) false None) in
      COk (RGlobal id) (set_nglob t1 (S (tb_nglob t)))
  end.

(** tiny.c:851-878 [DeclareArgument] *)
Definition declare_argument (nargs : nat) (name : text) (tg : tag) : tbl -> cres tbl unit :=
  fun t =>
    match tb_func t with
    | None => CAbort
    | Some f =>
        match sym_at t f with
        | Some (mkSym _ _ (SyFunc i args locals ret)) =>
            match find_index (named name) args 0 with
            | Some _ => CFail t
            | None =>
                let v := mkLv name (- Z.of_nat nargs + Z.of_nat (length args)) 0 false false (Some tg) in
                COk tt (put_body t f (SyFunc i (args ++ [v]) locals ret))
            end
        | _ => CUB
        end
    end.

(** tiny.c:880-906 [DeclareLocal] *)
Definition declare_local (name : text) : tbl -> cres tbl vref :=
  fun t =>
    match tb_func t with
    | None => CAbort
    | Some f =>
        match sym_at t f with
        | Some (mkSym _ _ (SyFunc i args locals ret)) =>
            match find_index (open_named name) locals 0 with
            | Some _ => CFail t
            | None =>
                let v := mkLv name (Z.of_nat (length locals)) (tb_scope t) false false None in
                COk (RLocal f (length locals)) (put_body t f (SyFunc i args (locals ++ [v]) ret))
            end
        | _ => CUB
        end
    end.

(** tiny.c:908-932 [DeclareConst] with the value its callers store *)
Definition declare_const (name : text) (c : constv) : tbl -> cres tbl unit :=
  r <- reference_variable name ;;
  match r with
  | Some _ => cfail
  | None => fun t => COk tt (snd (new_sym t name (SyConst c)))
  end.

(** tiny.c:934-946 [DeclareFunction] *)
Definition declare_function (name : text) : tbl -> cres tbl nat :=
  fun t =>
    let '(id, t1) := new_sym t name (SyFunc (tb_nfun t) [] [] None) in
    COk id (set_nfun t1 (S (tb_nfun t))).

Definition is_function (name : text) (s : sym) : bool :=
  match sy_body s with
  | SyFunc _ _ _ _ | SyForeign _ _ _ _ _ => text_eqb (sy_name s) name
  | _ => false
  end.

(** tiny.c:948-958 [ReferenceFunction] *)
Definition reference_function (t : tbl) (name : text) : option sym :=
  find (is_function name) (tb_syms t).

Definition is_foreign_named (name : text) (s : sym) : bool :=
  match sy_body s with SyForeign _ _ _ _ _ => text_eqb (sy_name s) name | _ => false end.

(** tiny.c:960-985 [BindFunction] after the signature has been read; a second
    function of that name exits the process *)
Definition bind_function (name : text) (args : list tag) (varargs : bool) (ret : tag) (callee : nat)
  : tbl -> cres tbl unit :=
  fun t =>
    match find (is_foreign_named name) (tb_syms t) with
    | Some _ => CAbort
    | None =>
        let '(_, t1) := new_sym t name (SyForeign (tb_nforeign t) args varargs ret callee) in
        COk tt (set_nforeign t1 (S (tb_nforeign t)))
    end.

(** tiny.c:692-701 [RegisterString] (Strings.v) on the state *)
Definition intern (s : text) : tbl -> cres tbl nat :=
  fun t => match register_string (tb_strings t) s with
           | Ok (tab, i) => COk i (set_strings t tab)
           | _ => CAbort
           end.

(** ** Types *)

Definition is_struct_named (name : text) (s : sym) : bool :=
  match sy_body s with SyStruct _ _ => text_eqb (sy_name s) name | _ => false end.

(** tiny.c:1502-1511 [GetStructTag] *)
Definition get_struct_tag (t : tbl) (name : text) : option sym :=
  find (is_struct_named name) (tb_syms t).

(** tiny.c:1513-1529 [DeclareStruct] *)
Definition declare_struct (name : text) (search : bool) : tbl -> cres tbl nat :=
  fun t =>
    match (if search then get_struct_tag t name else None) with
    | Some s => COk (sy_id s) t
    | None => let '(id, t1) := new_sym t name (SyStruct false []) in COk id t1
    end.

Definition is_type_named (name : text) (s : sym) : bool :=
  match sy_body s with
  | SyStruct _ _ | SyForeignTag => text_eqb (sy_name s) name
  | _ => false
  end.

Definition prim_tag (name : text) : option tag :=
  if text_eqb name (text_of "void") then Some GVoid
  else if text_eqb name (text_of "bool") then Some GBool
  else if text_eqb name (text_of "int") then Some GInt
  else if text_eqb name (text_of "float") then Some GFloat
  else if text_eqb name (text_of "str") then Some GStr
  else if text_eqb name (text_of "any") then Some GAny
  else None.

(** tiny.c:1531-1562 [GetTagFromName] with [declareStruct] *)
Definition tag_from_name (name : text) : tbl -> cres tbl tag :=
  fun t =>
    match prim_tag name with
    | Some g => COk g t
    | None =>
        match find (is_type_named name) (tb_syms t) with
        | Some s => COk (GSym (sy_id s)) t
        | None => match declare_struct name false t with
                  | COk id t1 => COk (GSym id) t1
                  | CFail t1 => CFail t1
                  | CAbort => CAbort | CUB => CUB | CHang => CHang | CFuel => CFuel
                  end
        end
    end.

(** tiny.c:2460-2463 [GetTagName] *)
Definition tag_name (t : tbl) (g : tag) : option text :=
  match g with
  | GVoid => Some (text_of "void") | GBool => Some (text_of "bool") | GInt => Some (text_of "int")
  | GFloat => Some (text_of "float") | GStr => Some (text_of "str") | GAny => Some (text_of "any")
  | GSym id => option_map sy_name (sym_at t id)
  end.

Definition is_nullable_of (g : tag) (s : sym) : bool :=
  match sy_body s with
  | SyNullable g' => if tag_eq_dec g' g then true else false
  | _ => false
  end.

(** tiny.c:1566-1587 [GetOrCreateNullable] (the name is cut to 255 characters) *)
Definition get_nullable (g : tag) : tbl -> cres tbl tag :=
  fun t =>
    match find (is_nullable_of g) (tb_syms t) with
    | Some s => COk (GSym (sy_id s)) t
    | None =>
        match tag_name t g with
        | None => CUB
        | Some n =>
            let '(id, t1) := new_sym t (firstn 255 (n ++ text_of "?")) (SyNullable g) in
            COk (GSym id) t1
        end
    end.

(** tiny.c:1589-1605 [GetFieldTag]: index and type of a field *)
Definition field_index (fs : list field) (name : text) : option (nat * tag) :=
  match find_index (fun f => text_eqb (fd_name f) name) fs 0 with
  | Some i => match nth_error fs i with Some f => Some (i, fd_tag f) | None => None end
  | None => None
  end.

(** ** Reading and writing the symbol a reference denotes *)

Definition var_of (t : tbl) (r : vref) : option lvar :=
  match r with
  | RLocal f i => match sym_at t f with
                  | Some (mkSym _ _ (SyFunc _ _ locals _)) => nth_error locals i
                  | _ => None end
  | RArg f i => match sym_at t f with
                | Some (mkSym _ _ (SyFunc _ args _ _)) => nth_error args i
                | _ => None end
  | _ => None
  end.

Definition put_var (t : tbl) (r : vref) (g : lvar -> lvar) : option tbl :=
  match r with
  | RLocal f i =>
      match sym_at t f with
      | Some (mkSym _ _ (SyFunc k args locals ret)) =>
          match nth_error locals i with
          | Some v => Some (put_body t f (SyFunc k args (update locals i (g v)) ret))
          | None => None
          end
      | _ => None
      end
  | RArg f i =>
      match sym_at t f with
      | Some (mkSym _ _ (SyFunc k args locals ret)) =>
          match nth_error args i with
          | Some v => Some (put_body t f (SyFunc k (update args i (g v)) locals ret))
          | None => None
          end
      | _ => None
      end
  | _ => None
  end.

Definition lv_set_tag (g : tag) (v : lvar) : lvar :=
  mkLv (lv_name v) (lv_index v) (lv_scope v) (lv_ended v) (lv_init v) (Some g).
Definition lv_set_init (v : lvar) : lvar :=
  mkLv (lv_name v) (lv_index v) (lv_scope v) (lv_ended v) true (lv_tag v).

(** [sym->var.tag = g] *)
Definition set_var_tag (r : vref) (g : tag) : tbl -> cres tbl unit :=
  fun t =>
    match r with
    | RGlobal id =>
        match sym_at t id with
        | Some (mkSym _ _ (SyGlobal i b _)) => COk tt (put_body t id (SyGlobal i b (Some g)))
        | _ => CUB
        end
    | RConst _ => CUB
    | _ => match put_var t r (lv_set_tag g) with Some t1 => COk tt t1 | None => CUB end
    end.

(** [sym->var.initialized = true] *)
Definition set_var_init (r : vref) : tbl -> cres tbl unit :=
  fun t =>
    match r with
    | RGlobal id =>
        match sym_at t id with
        | Some (mkSym _ _ (SyGlobal i _ g)) => COk tt (put_body t id (SyGlobal i true g))
        | _ => CUB
        end
    | RConst _ => CUB
    | _ => match put_var t r lv_set_init with Some t1 => COk tt t1 | None => CUB end
    end.
