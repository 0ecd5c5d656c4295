(** * What the host may do to a state before and between compiles:
    /repo/tiny/src/tiny.c:438-470, 989-1096, 4374-4389

    All of it works on the symbol table.  A foreign function is named by a number
    (its address).  Compile errors inside these calls ([CFail]) longjmp: fine
    inside a [use] macro, undefined outside a compile. *)
From Verif Require Import Base Token Lexer Values Strings Code FileLine Syntax Symbols Parser Resolve Compile.
Local Open Scope nat_scope.
Local Open Scope cm_scope.

(** tiny.c:989-1006 [Tiny_RegisterType] *)
Definition register_type (name : text) : tbl -> cres tbl unit :=
  fun t =>
    match prim_tag name with
    | Some _ => COk tt t
    | None =>
        match find (is_type_named name) (tb_syms t) with
        | Some (mkSym id _ (SyStruct false _)) => COk tt (put_body t id SyForeignTag)
        | Some _ => COk tt t
        | None => COk tt (snd (new_sym t name SyForeignTag))
        end
    end.

(** tiny.c:1034-1053: the parameter types; commas are not needed and may be repeated *)
Fixpoint sig_args (n : nat) : pm (list tag * bool) :=
  match n with
  | O => fun _ => CFuel
  | S n =>
      t <- last_tok ;;
      match t with
      | CLOSEPAREN => cret ([], false)
      | COMMA => next_token ;;; sig_args n
      | ELLIPSIS => next_token ;;; r <- sig_args n ;; cret (fst r, true)
      | IDENT => g <- parse_type ;; r <- sig_args n ;; cret (g :: fst r, snd r)
      | _ => cabort
      end
  end.

(** tiny.c:1012-1077 [Tiny_BindFunction]; asserts abort *)
Definition bind_sig (n : nat) (callee : nat) : pm unit :=
  next_token ;;;
  t <- last_tok ;;
  if negb (tok_eqb t IDENT) then cabort else
  name <- lexeme ;;
  next_token ;;;
  t <- last_tok ;;
  if negb (tok_eqb t OPENPAREN) then on_tbl (bind_function name [] true GAny callee) else
  next_token ;;;
  r <- sig_args n ;;
  next_token ;;;
  t <- last_tok ;;
  ret <- (if tok_eqb t COLON then
            next_token ;;;
            t' <- last_tok ;;
            if tok_eqb t' IDENT then parse_type else cabort
          else cret GAny) ;;
  on_tbl (bind_function name (fst r) (snd r) ret callee).

Definition bind_host (n : nat) (sig : text) (callee : nat) : tbl -> cres tbl unit :=
  fun t => match bind_sig n callee (start_parse t sig) with
           | COk u p => COk u (ps_tbl p)
           | CFail p => CFail (ps_tbl p)
           | CAbort => CAbort | CUB => CUB | CHang => CHang | CFuel => CFuel
           end.

(** tiny.c:1079-1096 [Tiny_BindConstBool], ...; the order in which the string is
    registered and the constant declared is not specified *)
Inductive hconst := HBool (b : bool) | HInt (z : Z) | HFloat (bits : Z) | HStr (s : text).
Definition bind_const (name : text) (c : hconst) : tbl -> cres tbl unit :=
  match c with
  | HBool b => declare_const name (KBool b)
  | HInt z => declare_const name (KInt z)
  | HFloat f => declare_const name (KFloat f)
  | HStr s => i <- intern s ;; declare_const name (KStr i)
  end.

(** tiny.c:4374-4389 [Tiny_BindMacro]; a second macro of that name exits *)
Definition bind_macro (name : text) : tbl -> cres tbl unit :=
  fun t =>
    if existsb (fun y => match sy_body y with SyModule => text_eqb (sy_name y) name | _ => false end) (tb_syms t)
    then CAbort
    else COk tt (snd (new_sym t name SyModule)).

Inductive host_op :=
| HType (name : text)
| HFun (sig : text) (callee : nat)
| HConst (name : text) (c : hconst)
| HMacro (name : text).

Definition host (n : nat) (o : host_op) : km unit :=
  kon_tbl (match o with
           | HType name => register_type name
           | HFun sig callee => bind_host n sig callee
           | HConst name c => bind_const name c
           | HMacro name => bind_macro name
           end).

(** tiny.c:438-468 [Tiny_CreateStateWithContext]; the two functions it binds are
    called 0 and 1 *)
Definition create_state : cres kst unit :=
  (host 20 (HFun (text_of "int(float): int") 0) ;;; host 20 (HFun (text_of "float(int): float") 1)) init_kst.

(** ** Looking up what was compiled *)

(** tiny.c:542-552 [Tiny_GetGlobalIndex]; -1 if there is none *)
Definition get_global_index (s : kst) (name : text) : Z :=
  match find (fun y => match sy_body y with SyGlobal _ _ _ => text_eqb (sy_name y) name | _ => false end) (tb_syms (k_tbl s)) with
  | Some (mkSym _ _ (SyGlobal i _ _)) => Z.of_nat i
  | _ => (-1)%Z
  end.

(** tiny.c:554-564 [Tiny_GetFunctionIndex] *)
Definition get_function_index (s : kst) (name : text) : Z :=
  match find (fun y => match sy_body y with SyFunc _ _ _ _ => text_eqb (sy_name y) name | _ => false end) (tb_syms (k_tbl s)) with
  | Some (mkSym _ _ (SyFunc i _ _ _)) => Z.of_nat i
  | _ => (-1)%Z
  end.

(** ** The states a host can reach without a compile error *)
Inductive steps : kst -> kst -> Prop :=
| st_refl s : steps s s
| st_host n o s s1 s2 : host n o s = COk tt s1 -> steps s1 s2 -> steps s s2
| st_compile n mods file src ts s s1 s2 :
    (* macros do what a host may do, which includes compiling *)
    (forall m args as_ x b x', mods m args as_ x = COk b x' -> steps x x') ->
    compile_string n mods file src s = COk ts s1 -> steps s1 s2 -> steps s s2.

Definition reachable (s : kst) : Prop := exists s0, create_state = COk tt s0 /\ steps s0 s.

Example create_ex : match create_state with
  | COk tt s => map sy_name (tb_syms (k_tbl s)) = [text_of "int"; text_of "float"] /\
      map sy_body (tb_syms (k_tbl s)) = [SyForeign 0 [GFloat] false GInt 0; SyForeign 1 [GInt] false GFloat 1]
  | _ => False
  end.
Proof. vm_compute. auto. Qed.
