(** * Which declaration a name means

    A description of Tiny's scoping on statement trees, to be compared with the
    references the parser puts into them.  A name means the innermost visible
    local variable of that name, else the parameter, else the global variable or
    constant.  Blocks, loops and function bodies open a scope; the branches of a
    conditional do not.  Outside functions every variable is global, even inside
    a block.  Locals declared in a scope are gone after it; a local may not have
    the name of another visible local, but may hide a parameter or a global. *)
From Verif Require Import Base Token Values Syntax Symbols Parser.
Local Open Scope nat_scope.

(** What is visible: the function we are in, its parameters, the open scopes
    (innermost first) with their locals and the number of each, how many locals
    the function has had so far, and the global variables and constants. *)
Record env := mkEnv {
  en_fun : option nat;
  en_params : list text;
  en_scopes : list (list (text * nat));
  en_count : nat;
  en_globals : list (text * vref)
}.

Definition assoc {A} (x : text) (l : list (text * A)) : option A := option_map snd (find (fun p => text_eqb (fst p) x) l).
Fixpoint position (x : text) (l : list text) : option nat :=
  match l with
  | [] => None
  | y :: l => if text_eqb y x then Some 0 else option_map S (position x l)
  end.

(** The meaning of a name *)
Definition lookup (E : env) (x : text) : option vref :=
  match en_fun E with
  | None => assoc x (en_globals E)
  | Some f =>
      match assoc x (concat (en_scopes E)) with
      | Some i => Some (RLocal f i)
      | None =>
          match position x (en_params E) with
          | Some i => Some (RArg f i)
          | None => assoc x (en_globals E)
          end
      end
  end.

Definition enter (E : env) : env := mkEnv (en_fun E) (en_params E) ([] :: en_scopes E) (en_count E) (en_globals E).
Definition leave (E : env) : env := mkEnv (en_fun E) (en_params E) (tl (en_scopes E)) (en_count E) (en_globals E).
Definition add_local (E : env) (x : text) : env :=
  mkEnv (en_fun E) (en_params E)
    (match en_scopes E with [] => [] | sc :: r => (sc ++ [(x, en_count E)]) :: r end) (S (en_count E)) (en_globals E).
Definition add_global (E : env) (x : text) (r : vref) : env :=
  mkEnv (en_fun E) (en_params E) (en_scopes E) (en_count E) (en_globals E ++ [(x, r)]).
Definition in_function (E : env) (f : nat) (params : list text) : env := mkEnv (Some f) params [[]] 0 (en_globals E).
Definition with_globals (E E2 : env) : env := mkEnv (en_fun E) (en_params E) (en_scopes E) (en_count E) (en_globals E2).

(** The names in an expression, with what the tree says they refer to *)
Fixpoint ids (e : expr) : list (text * option vref) :=
  match e with
  | EId x r => [(x, r)]
  | ECall _ args | ENew _ _ args => flat_map ids args
  | EBin _ l r => ids l ++ ids r
  | EUn _ e | EParen e | ECast e _ | EDot e _ => ids e
  | EIndex a i => ids a ++ ids i
  | ETern c a b => ids c ++ ids a ++ ids b
  | _ => []
  end.
Definition resolved (E : env) (l : list (text * option vref)) : Prop := Forall (fun p => snd p = lookup E (fst p)) l.

(** The statement [s], met in [E], refers everywhere to what its names mean
    there, and leaves [E']; [params f] are the parameters of the function [f].
    A declaration is visible in its own initial value. *)
Inductive scoped (params : nat -> list text) : env -> stmt -> env -> Prop :=
| sc_call E l f es : resolved E (flat_map ids es) -> scoped params E (SCall l f es) E
| sc_local E l op f x e : en_fun E = Some f -> op = DECLARE \/ op = EQUAL -> assoc x (concat (en_scopes E)) = None ->
    resolved (add_local E x) (ids e) ->
    scoped params E (SAsg l op (EId x (Some (RLocal f (en_count E)))) e) (add_local E x)
| sc_global E l op x id e : en_fun E = None -> op = DECLARE \/ op = EQUAL -> assoc x (en_globals E) = None ->
    ~ In (RGlobal id) (map snd (en_globals E)) -> resolved (add_global E x (RGlobal id)) (ids e) ->
    scoped params E (SAsg l op (EId x (Some (RGlobal id))) e) (add_global E x (RGlobal id))
| sc_const E l x id e : lookup E x = None -> ~ In (RConst id) (map snd (en_globals E)) -> const_of e <> None ->
    scoped params E (SAsg l DECLARECONST (EId x None) e) (add_global E x (RConst id))
| sc_assign E l op a e : op <> DECLARE -> op <> DECLARECONST -> resolved E (ids a ++ ids e) -> scoped params E (SAsg l op a e) E
| sc_block E l ss E' : scoped_all params (enter E) ss E' -> scoped params E (SBlock l ss) (leave E')
| sc_proc E l f body E' : en_fun E = None -> NoDup (params f) -> scoped params (in_function E f (params f)) body E' ->
    scoped params E (SProc l f body) (with_globals E E')
| sc_if E l c a E' : resolved E (ids c) -> scoped params E a E' -> scoped params E (SIf l c a None) E'
| sc_else E l c a E1 b E' : resolved E (ids c) -> scoped params E a E1 -> scoped params E1 b E' -> scoped params E (SIf l c a (Some b)) E'
| sc_while E l c body E' : resolved E (ids c) -> scoped params (enter E) body E' -> scoped params E (SWhile l c body) (leave E')
| sc_for E l i E1 c st E2 body E' : scoped params (enter E) i E1 -> resolved E1 (ids c) -> scoped params E1 st E2 -> scoped params E2 body E' ->
    scoped params E (SFor l i c st body) (leave E')
| sc_return E l : scoped params E (SReturn l None) E
| sc_return_value E l e : resolved E (ids e) -> scoped params E (SReturn l (Some e)) E
| sc_break E l : scoped params E (SBreak l) E
| sc_continue E l : scoped params E (SContinue l) E
| sc_use E l m args y : scoped params E (SUse l m args y) E
with scoped_all (params : nat -> list text) : env -> list stmt -> env -> Prop :=
| sc_nil E : scoped_all params E [] E
| sc_cons E s E1 ss E' : scoped params E s E1 -> scoped_all params E1 ss E' -> scoped_all params E (s :: ss) E'.

(** ** Reading a symbol table
    The global variables and constants, in order; the parameters of a function;
    the environment a source is compiled in. *)
Definition is_value (y : sym) : bool := match sy_body y with SyGlobal _ _ _ | SyConst _ => true | _ => false end.
Definition value (y : sym) : text * vref := (sy_name y, value_ref y).
Definition values (t : tbl) : list (text * vref) := map value (filter is_value (tb_syms t)).
Definition args_of (t : tbl) (f : nat) : option (list text) :=
  match sym_at t f with Some (mkSym _ _ (SyFunc _ args _ _)) => Some (map lv_name args) | _ => None end.
Definition names_of (t : tbl) (f : nat) : list text := match args_of t f with Some l => l | None => [] end.
Definition env_of (t : tbl) : env := mkEnv None [] [] 0 (values t).
