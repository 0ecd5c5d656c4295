(** * Signatures of host functions: the text given to [Tiny_BindFunction]

    A declarative description, to be compared with [bind_sig] of Host.v, the model
    of /repo/tiny/src/tiny.c:1010-1077.  Types are spelled as in programs
    (Grammar.v). *)
From Verif Require Import Base Token Lexer Values Syntax Symbols Parser Grammar.
Local Open Scope nat_scope.

(** The parameter types.  Commas may be left out or repeated; [...] anywhere
    lets a call pass any number of further arguments. *)
Inductive spells_sig_args : tbl -> list token -> list tag -> bool -> tbl -> Prop :=
| sa_none T : spells_sig_args T [] [] false T
| sa_comma T c a gs va T' : tk c = COMMA -> spells_sig_args T a gs va T' -> spells_sig_args T (c :: a) gs va T'
| sa_dots T d a gs va T' : tk d = ELLIPSIS -> spells_sig_args T a gs va T' -> spells_sig_args T (d :: a) gs true T'
| sa_type T a g T1 b gs va T' : spells_type T a g T1 -> spells_sig_args T1 b gs va T' ->
    spells_sig_args T (a ++ b) (g :: gs) va T'.

(** [signature T a k name args va ret T']: the tokens [a], followed by one of
    kind [k], are the signature of a function [name] with parameter types [args],
    more arguments if [va], and result type [ret].  A bare name takes anything;
    without a result type the result is [any].  What follows is not looked at, but
    a [?] after the result type belongs to it.  [T], [T']: structures mentioned
    for the first time are added. *)
Inductive signature : tbl -> list token -> tokkind -> text -> list tag -> bool -> tag -> tbl -> Prop :=
| sg_name T t x k : tk t = IDENT -> tk_lexeme t = Some x -> k <> OPENPAREN ->
    signature T [t] k x [] true GAny T
| sg_args T t x o a c k gs va T' : tk t = IDENT -> tk_lexeme t = Some x -> tk o = OPENPAREN -> tk c = CLOSEPAREN ->
    spells_sig_args T a gs va T' -> k <> COLON ->
    signature T (t :: o :: a ++ [c]) k x gs va GAny T'
| sg_result T t x o a c l b k gs va T1 g T' : tk t = IDENT -> tk_lexeme t = Some x -> tk o = OPENPAREN -> tk c = CLOSEPAREN ->
    spells_sig_args T a gs va T1 -> tk l = COLON -> spells_type T1 b g T' -> (k = QUESTION -> length b = 2) ->
    signature T (t :: o :: a ++ c :: l :: b) k x gs va g T'.

(** The tokens of [src], of which the last is repeated for ever, begin with [a]
    and then [y]. *)
Definition endless (n : nat) (e : stream_end) : list token := match e with SRepeat x => repeat x n | _ => [] end.
Definition begins (src : text) (a : list token) (y : token) : Prop :=
  exists n r, fst (lex_all src) ++ endless n (snd (lex_all src)) = a ++ y :: r.
