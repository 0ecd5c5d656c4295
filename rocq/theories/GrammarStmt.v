(** * The grammar of statements and programs

    A declarative description of which token sequence spells which statement, to
    be compared with [parse_stmt], [parse_struct] and [parse_program] of
    Parser.v, the models of /repo/tiny/src/tiny.c:1637-1817 and 2197-2458.
    Expressions are those of Grammar.v.

    [sentence T a x st T']: followed by the token [x], the tokens [a] spell the
    statement [st].  What may follow matters: statements have no terminator, so
    a statement ends where the next token cannot continue it.  [T] and [T'] are
    the symbol tables before and after. *)
From Verif Require Import Base Token Lexer Values Syntax Symbols Parser Grammar.
Local Open Scope nat_scope.

(** The token after the tokens before [b], if [x] follows [b] *)
Definition ahead (b : list token) (x : token) : token := hd x b.

(** Parameters: [name: type], with commas between and possibly after them *)
Inductive spells_params : tbl -> list token -> list (text * tag) -> tbl -> Prop :=
| pa_none T : spells_params T [] [] T
| pa_last T t x c a g T' : tk t = IDENT -> tk_lexeme t = Some x -> tk c = COLON -> spells_type T a g T' ->
    spells_params T (t :: c :: a) [(x, g)] T'
| pa_more T t x c a g T1 m b ps T' : tk t = IDENT -> tk_lexeme t = Some x -> tk c = COLON -> spells_type T a g T1 ->
    tk m = COMMA -> spells_params T1 b ps T' -> spells_params T (t :: c :: a ++ m :: b) ((x, g) :: ps) T'.

(** All [n] parameters of the current function are declared, from left to right *)
Inductive declares_params (n : nat) : tbl -> list (text * tag) -> tbl -> Prop :=
| dp_nil T : declares_params n T [] T
| dp_cons T x g T1 ps T' : declare_argument n x g T = COk tt T1 -> declares_params n T1 ps T' -> declares_params n T ((x, g) :: ps) T'.

(** [: type] after the parameters; without it the function returns nothing *)
Inductive spells_result : tbl -> list token -> tag -> tbl -> Prop :=
| re_none T : spells_result T [] GVoid T
| re_type T c a g T' : tk c = COLON -> spells_type T a g T' -> spells_result T (c :: a) g T'.

(** A new variable: local inside a function, global outside *)
Definition declares (T : tbl) (x : text) (v : vref) (T' : tbl) : Prop :=
  match tb_func T with Some _ => declare_local x T = COk v T' | None => declare_global x T = COk v T' end.

(** The arguments of [use]: string literals; the commas may be left out *)
Inductive spells_use_args : list token -> list text -> Prop :=
| ua_none : spells_use_args [] []
| ua_more t x c b xs : tk t = STRING -> tk_lexeme t = Some x -> (c = [] \/ exists m, c = [m] /\ tk m = COMMA) ->
    spells_use_args b xs -> spells_use_args (t :: c ++ b) (x :: xs).

(** [as name] after a [use]; [x] follows *)
Inductive spells_as : list token -> token -> option text -> Prop :=
| as_none x : (tk x = IDENT -> exists y, tk_lexeme x = Some y /\ y <> text_of "as") -> spells_as [] x None
| as_some k t y x : tk k = IDENT -> tk_lexeme k = Some (text_of "as") -> tk t = IDENT -> tk_lexeme t = Some y -> spells_as [k; t] x (Some y).

Definition is_call (e : expr) : Prop := exists f es, e = ECall f es.

(** The statement begins with an operand of level 6 (Grammar.v) which ends
    before the token of kind [k] *)
Definition head_of (T : tbl) (a : list token) (e : expr) (T' : tbl) (k : tokkind) : Prop :=
  spells 6 T a e T' /\ tk (hd (mkTok TEOF 0 1 None false 0 0) a) <> IF /\
  ~ is_suffix k /\ no_call e k /\ (ends_open e = true -> ~ is_bop k).

(** The literals a constant may be declared with *)
Inductive constant : expr -> constv -> Prop :=
| co_bool b : constant (EBool b) (KBool b)
| co_char z : constant (EChar z) (KInt z)
| co_int z : constant (EInt z) (KInt z)
| co_float b : constant (EFloat b) (KFloat b)
| co_str i : constant (EStr i) (KStr i).

Inductive sentence : tbl -> list token -> token -> stmt -> tbl -> Prop :=
(* { ... } opens a scope *)
| se_block T o a c x ss T1 T' : tk o = OPENCURLY -> tk c = CLOSECURLY ->
    sentences (open_scope T) a c ss T1 -> close_scope T1 = COk tt T' ->
    sentence T (o :: a ++ [c]) x (SBlock (tk_line o) ss) T'
(* func f(x: t, ...): t body, outside functions only *)
| se_func T f t nm id T1 o a ps T2 c T3 b g T4 T5 d x st T6 T7 :
    tk f = FUNC -> tb_func T = None -> tk t = IDENT -> tk_lexeme t = Some nm -> declare_function nm T = COk id T1 ->
    tk o = OPENPAREN -> spells_params (set_func T1 (Some id)) a ps T2 -> declares_params (length ps) T2 ps T3 -> tk c = CLOSEPAREN ->
    spells_result T3 b g T4 -> set_ret id g T4 = COk tt T5 ->
    sentence (open_scope T5) d x st T6 -> close_scope T6 = COk tt T7 ->
    sentence T (f :: t :: o :: a ++ c :: b ++ d) x (SProc (tk_line f) id st) (set_func T7 None)
(* if c s, not followed by else *)
| se_if T i a e T1 b x st T' : tk i = IF -> spells 0 T a e T1 -> stops e (tk (ahead b x)) ->
    sentence T1 b x st T' -> tk x <> ELSE ->
    sentence T (i :: a ++ b) x (SIf (tk_line i) e st None) T'
| se_if_else T i a e T1 b st1 T2 l d x st2 T' : tk i = IF -> spells 0 T a e T1 -> stops e (tk (ahead b l)) ->
    sentence T1 b l st1 T2 -> tk l = ELSE -> sentence T2 d x st2 T' ->
    sentence T (i :: a ++ b ++ l :: d) x (SIf (tk_line i) e st1 (Some st2)) T'
(* the line of a loop is that of the token after the keyword *)
| se_while T w a e T1 b x st T2 T' : tk w = WHILE -> spells 0 T a e T1 -> stops e (tk (ahead b x)) ->
    sentence (open_scope T1) b x st T2 -> close_scope T2 = COk tt T' ->
    sentence T (w :: a ++ b) x (SWhile (tk_line (hd x a)) e st) T'
| se_for T f a m1 st1 T1 b e T2 m2 c st2 T3 d x st3 T4 T' : tk f = FOR -> tk m1 = SEMI -> tk m2 = SEMI ->
    sentence (open_scope T) a m1 st1 T1 -> spells 0 T1 b e T2 ->
    sentence T2 c (ahead d x) st2 T3 -> sentence T3 d x st3 T4 -> close_scope T4 = COk tt T' ->
    sentence T (f :: a ++ m1 :: b ++ m2 :: c ++ d) x (SFor (tk_line (hd x a)) st1 e st2 st3) T'
(* return needs its semicolon only without a value *)
| se_return T r m x f : tk r = RETURN -> tk m = SEMI -> tb_func T = Some f -> sentence T [r; m] x (SReturn (tk_line r) None) T
| se_return_value T r a e x f i nm ix args locals g T' : tk r = RETURN -> tb_func T = Some f ->
    sym_at T f = Some (mkSym i nm (SyFunc ix args locals (Some g))) -> g <> GVoid ->
    spells 0 T a e T' -> stops e (tk x) -> sentence T (r :: a) x (SReturn (tk_line r) (Some e)) T'
(* the line of a break is that of the next token *)
| se_break T b x : tk b = BREAK -> sentence T [b] x (SBreak (tk_line x)) T
| se_continue T c x : tk c = CONTINUE -> sentence T [c] x (SContinue (tk_line c)) T
| se_use T u t m o a args c b y x : tk u = USE -> tb_func T = None -> tb_scope T = 0 -> tk t = IDENT -> tk_lexeme t = Some m ->
    tk o = OPENPAREN -> spells_use_args a args -> tk c = CLOSEPAREN -> spells_as b x y ->
    sentence T (u :: t :: o :: a ++ c :: b) x (SUse (tk_line u) m args y) T
| se_call T a x f es T' : head_of T a (ECall f es) T' (tk x) -> sentence T a x (SCall (tk_line (hd x a)) f es) T'
(* x := e *)
| se_declare T t y r d v T1 a e x T' : tk t = IDENT -> tk_lexeme t = Some y -> reference_variable y T = COk r T ->
    tk d = DECLARE -> declares T y v T1 -> spells 0 T1 a e T' -> stops e (tk x) ->
    sentence T (t :: d :: a) x (SAsg (tk_line d) DECLARE (EId y (Some v)) e) T'
(* x: t = e *)
| se_typed T t y r c v T1 b g T2 T3 q a e x T' : tk t = IDENT -> tk_lexeme t = Some y -> reference_variable y T = COk r T ->
    tk c = COLON -> declares T y v T1 -> spells_type T1 b g T2 -> set_var_tag v g T2 = COk tt T3 -> tk q = EQUAL ->
    spells 0 T3 a e T' -> stops e (tk x) ->
    sentence T (t :: c :: b ++ q :: a) x (SAsg (tk_line c) EQUAL (EId y (Some v)) e) T'
(* x :: e *)
| se_const T a y r T1 d b e k x T2 T' : head_of T a (EId y r) T1 DECLARECONST -> tk d = DECLARECONST ->
    spells 0 T1 b e T2 -> stops e (tk x) -> constant e k -> declare_const y k T2 = COk tt T' ->
    sentence T (a ++ d :: b) x (SAsg (tk_line d) DECLARECONST (EId y r) e) T'
(* l = e, l += e, ...: type resolution and code generation reject what is not an
   assignment operator *)
| se_assign T a l T1 o b e x T' : head_of T a l T1 (tk o) -> ~ is_call l -> ~ is_bop (tk o) ->
    tk o <> DECLARE -> tk o <> COLON -> tk o <> DECLARECONST ->
    spells 0 T1 b e T' -> stops e (tk x) ->
    sentence T (a ++ o :: b) x (SAsg (tk_line o) (tk o) l e) T'
with sentences : tbl -> list token -> token -> list stmt -> tbl -> Prop :=
| ss_nil T x : sentences T [] x [] T
| ss_cons T a st T1 b x ss T' : sentence T a (ahead b x) st T1 -> sentences T1 b x ss T' -> sentences T (a ++ b) x (st :: ss) T'.

Scheme sentence_mind := Minimality for sentence Sort Prop
  with sentences_mind := Minimality for sentences Sort Prop.
Combined Scheme sentence_ind2 from sentence_mind, sentences_mind.

(** ** Structures and programs *)

(** [name: type] for every field of the structure [id]; at most 255, all different *)
Inductive spells_fields (id : nat) : tbl -> list token -> tbl -> Prop :=
| fi_nil T : spells_fields id T [] T
| fi_cons T t x c a g T1 nm d fs b T' nm' d' fs' : tk t = IDENT -> tk_lexeme t = Some x -> tk c = COLON ->
    sym_at T id = Some (mkSym id nm (SyStruct d fs)) -> length fs < 255 -> field_index fs x = None ->
    spells_type T a g T1 -> sym_at T1 id = Some (mkSym id nm' (SyStruct d' fs')) ->
    spells_fields id (put_body T1 id (SyStruct d' (fs' ++ [mkField x g]))) b T' ->
    spells_fields id T (t :: c :: a ++ b) T'.

(** [struct S { ... }]: [S] must not have fields yet, and must get at least one *)
Inductive spells_struct : tbl -> list token -> tbl -> Prop :=
| sr T s t x id T1 nm fs o a c T' nm' d' f fs' : tk s = STRUCT -> tb_func T = None -> tk t = IDENT -> tk_lexeme t = Some x ->
    declare_struct x true T = COk id T1 -> sym_at T1 id = Some (mkSym id nm (SyStruct false fs)) -> tk o = OPENCURLY ->
    spells_fields id (put_body T1 id (SyStruct true fs)) a T' -> tk c = CLOSECURLY ->
    sym_at T' id = Some (mkSym id nm' (SyStruct d' (f :: fs'))) ->
    spells_struct T (s :: t :: o :: a ++ [c]) T'.

(** A program: statements and structures up to the end of the file [x] *)
Inductive program : tbl -> list token -> token -> list stmt -> tbl -> Prop :=
| pr_end T x : tk x = TEOF -> program T [] x [] T
| pr_struct T a T1 b x ss T' : spells_struct T a T1 -> program T1 b x ss T' -> program T (a ++ b) x ss T'
| pr_stmt T a st T1 b x ss T' : sentence T a (ahead b x) st T1 -> program T1 b x ss T' -> program T (a ++ b) x (st :: ss) T'.
