(** * The grammar of expressions

    A declarative description of which token sequence spells which expression
    tree, to be compared with the recursive-descent parser of Parser.v.  It is
    stratified by binding strength: every binary operator has a level, its left
    operand is spelled at the same level (so operators of one level associate to
    the left), its right operand one level up.  The tables [T], [T'] before and
    after matter only to identifiers, string literals, [new] and [cast]: they
    refer to the symbol table and may add to it. *)
From Verif Require Import Base Token Lexer Values Syntax Symbols Parser.
Local Open Scope nat_scope.

(** Binding strength: * / % & | bind tightest, then << >> + -, then the
    comparisons, then && and ||. *)
Definition strength (o : bop) : nat :=
  match o with
  | BMul | BDiv | BMod | BAnd | BOr => 5
  | BShl | BShr | BAdd | BSub => 4
  | BLte | BGte | BEq | BNe | BLt | BGt => 3
  | BLand | BLor => 2
  end.
Definition bop_token (o : bop) : tokkind :=
  match o with
  | BMul => STAR | BDiv => SLASH | BMod => PERCENT | BAnd => AND | BOr => OR
  | BShl => SHIFT_LEFT | BShr => SHIFT_RIGHT | BAdd => PLUS | BSub => MINUS
  | BLte => LTE | BGte => GTE | BEq => EQUALS | BNe => NOTEQUALS | BLt => LT | BGt => GT
  | BLand => LOG_AND | BLor => LOG_OR
  end.
Definition is_bop (k : tokkind) : Prop := exists o, k = bop_token o.
Definition is_suffix (k : tokkind) : Prop := k = OPENSQUARE \/ k = DOT \/ k = ARROW.

(** The spelling ends with a bare identifier, which a following [(] would turn
    into a call *)
Fixpoint ends_id (e : expr) : bool :=
  match e with
  | EId _ _ => true
  | EBin _ _ r => ends_id r
  | EUn _ e => ends_id e
  | ETern _ _ b => ends_id b
  | _ => false
  end.
(** The spelling ends with the last branch of a conditional, which would take
    a following operator for itself *)
Fixpoint ends_open (e : expr) : bool :=
  match e with
  | EBin _ _ r => ends_open r
  | EUn _ e => ends_open e
  | ETern _ _ _ => true
  | _ => false
  end.

(** A token of kind [k] cannot belong to the expression [e] spelled before it *)
Definition no_call (e : expr) (k : tokkind) : Prop := ends_id e = true -> k <> OPENPAREN.
Definition stops (e : expr) (k : tokkind) : Prop := ~ is_suffix k /\ ~ is_bop k /\ no_call e k.

(** Types: a name, or a name and a question mark *)
Inductive spells_type : tbl -> list token -> tag -> tbl -> Prop :=
| st_name T t x g T' : tk t = IDENT -> tk_lexeme t = Some x -> tag_from_name x T = COk g T' -> spells_type T [t] g T'
| st_opt T t x g T1 q g' T' : tk t = IDENT -> tk_lexeme t = Some x -> tag_from_name x T = COk g T1 -> g <> GVoid ->
    tk q = QUESTION -> get_nullable g T1 = COk g' T' -> spells_type T [t; q] g' T'.

(** The field name before a value in [new] *)
Inductive spells_name : list token -> list text -> Prop :=
| sn_none : spells_name [] []
| sn_dot d t x q : tk d = DOT -> tk t = IDENT -> tk_lexeme t = Some x -> tk q = EQUAL -> spells_name [d; t; q] [x].

(** [spells p T a e T']: level 0 is any expression; 2 to 5 are the levels of the
    operators; 6 are operands: prefix operators and conditionals; 7 are operands
    to which [.x], [[i]] and [->f()] can be attached. *)
Inductive spells : nat -> tbl -> list token -> expr -> tbl -> Prop :=
| sp_bin T a l T1 o t b r T2 : ends_open l = false ->
    spells (strength o) T a l T1 -> tk t = bop_token o -> spells (S (strength o)) T1 b r T2 ->
    spells (strength o) T (a ++ t :: b) (EBin o l r) T2
| sp_up p T a e T' : p <= 6 -> spells (S p) T a e T' -> spells p T a e T'
| sp_minus T t a e T' : tk t = MINUS -> spells 6 T a e T' -> spells 6 T (t :: a) (EUn UMinus e) T'
| sp_bang T t a e T' : tk t = BANG -> spells 6 T a e T' -> spells 6 T (t :: a) (EUn UNot e) T'
| sp_if T i c e1 T1 x a e2 T2 el b e3 T3 : tk i = IF -> tk el = ELSE ->
    spells 0 T c e1 T1 -> stops e1 (tk x) -> spells 0 T1 (x :: a) e2 T2 -> spells 0 T2 b e3 T3 ->
    spells 6 T (i :: c ++ (x :: a) ++ el :: b) (ETern e1 e2 e3) T3
| sp_null T t : tk t = NULL -> spells 7 T [t] ENull T
| sp_bool T t : tk t = BOOL -> spells 7 T [t] (EBool (tk_b t)) T
| sp_char T t : tk t = CHAR -> spells 7 T [t] (EChar (tk_i t)) T
| sp_int T t : tk t = INT -> spells 7 T [t] (EInt (tk_i t)) T
| sp_float T t : tk t = FLOAT -> spells 7 T [t] (EFloat (tk_f t)) T
| sp_str T t x i T' : tk t = STRING -> tk_lexeme t = Some x -> intern x T = COk i T' -> spells 7 T [t] (EStr i) T'
| sp_id T t x r T' : tk t = IDENT -> tk_lexeme t = Some x -> reference_variable x T = COk r T' -> spells 7 T [t] (EId x r) T'
| sp_call T t x o a es c T' : tk t = IDENT -> tk_lexeme t = Some x -> tk o = OPENPAREN -> tk c = CLOSEPAREN ->
    spells_args T a es T' -> spells 7 T (t :: o :: a ++ [c]) (ECall x es) T'
| sp_paren T o a e c T' : tk o = OPENPAREN -> tk c = CLOSEPAREN -> spells 0 T a e T' -> spells 7 T (o :: a ++ [c]) (EParen e) T'
| sp_new T n t x id T1 o a ns es c T' : tk n = NEW -> tk_lexeme t = Some x -> declare_struct x true T = COk id T1 ->
    tk o = OPENCURLY -> tk c = CLOSECURLY -> spells_inits T1 a ns es T' ->
    spells 7 T (n :: t :: o :: a ++ [c]) (ENew id ns es) T'
| sp_cast T k o a e T1 m b g c T' : tk k = CAST -> tk o = OPENPAREN -> tk m = COMMA -> tk c = CLOSEPAREN ->
    spells 0 T a e T1 -> spells_type T1 b g T' -> spells 7 T (k :: o :: a ++ m :: b ++ [c]) (ECast e g) T'
| sp_index T a e T1 o b i c T' : spells 7 T a e T1 -> tk o = OPENSQUARE -> tk c = CLOSESQUARE -> spells 0 T1 b i T' ->
    spells 7 T (a ++ o :: b ++ [c]) (EIndex e i) T'
| sp_dot T a e T' d t x : spells 7 T a e T' -> tk d = DOT -> tk t = IDENT -> tk_lexeme t = Some x ->
    spells 7 T (a ++ [d; t]) (EDot e x) T'
| sp_arrow T a e T1 d t x o b es c T' : spells 7 T a e T1 -> tk d = ARROW -> tk t = IDENT -> tk_lexeme t = Some x ->
    tk o = OPENPAREN -> tk c = CLOSEPAREN -> spells_args T1 b es T' ->
    spells 7 T (a ++ d :: t :: o :: b ++ [c]) (ECall x (e :: es)) T'
(** arguments, with commas between and possibly after them *)
with spells_args : tbl -> list token -> list expr -> tbl -> Prop :=
| sa_none T : spells_args T [] [] T
| sa_last T a e T' : spells 0 T a e T' -> spells_args T a [e] T'
| sa_more T a e T1 c b es T' : spells 0 T a e T1 -> tk c = COMMA -> spells_args T1 b es T' -> spells_args T (a ++ c :: b) (e :: es) T'
(** the same in [new], where a value may carry a field name *)
with spells_inits : tbl -> list token -> list text -> list expr -> tbl -> Prop :=
| si_none T : spells_inits T [] [] [] T
| si_last T f ns a e T' : spells_name f ns -> spells 0 T a e T' -> spells_inits T (f ++ a) ns [e] T'
| si_more T f ns a e T1 c b ns' es T' : spells_name f ns -> spells 0 T a e T1 -> tk c = COMMA ->
    spells_inits T1 b ns' es T' -> spells_inits T (f ++ a ++ c :: b) (ns ++ ns') (e :: es) T'.

Scheme spells_mind := Minimality for spells Sort Prop
  with spells_args_mind := Minimality for spells_args Sort Prop
  with spells_inits_mind := Minimality for spells_inits Sort Prop.
Combined Scheme spells_ind3 from spells_mind, spells_args_mind, spells_inits_mind.

(** From the position [s] of the parser (tokens and table) to the position [s']
    lie exactly the tokens [a]; the tables do not matter here *)
Definition retbl (s : pst) (t : tbl) : pst := mkPst t (ps_toks s) (ps_end s) (ps_tok s).
Inductive eats : pst -> list token -> pst -> Prop :=
| eats_nil s t : eats s [] (retbl s t)
| eats_cons s s1 a s' : next_token s = COk tt s1 -> eats s1 a s' -> eats s (ps_tok s :: a) s'.
