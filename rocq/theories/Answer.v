(** * Declarations that do not mention themselves

    In [x := e] the name [x] is declared before [e] is read (tiny.c:2231-2252), so
    an [x] in [e] is the new variable, whose type is not known yet; type checking
    then reads an uninitialised pointer (finding F46).  [no_self] excludes this. *)
From Verif Require Import Base Token Syntax.

(** The variables an expression mentions *)
Fixpoint mentioned (e : expr) : list vref :=
  match e with
  | EId _ (Some r) => [r]
  | ECall _ args | ENew _ _ args => flat_map mentioned args
  | EBin _ l r | EIndex l r => mentioned l ++ mentioned r
  | EUn _ e | EParen e | ECast e _ | EDot e _ => mentioned e
  | ETern c a b => mentioned c ++ mentioned a ++ mentioned b
  | _ => []
  end.

Fixpoint no_self (s : stmt) : Prop :=
  let all := fix all (ss : list stmt) : Prop := match ss with [] => True | s :: ss' => no_self s /\ all ss' end in
  match s with
  | SAsg _ op (EId _ (Some v)) e => op = DECLARE -> ~ In v (mentioned e)
  | SBlock _ ss => all ss
  | SProc _ _ b | SWhile _ _ b => no_self b
  | SIf _ _ a b => no_self a /\ match b with Some b' => no_self b' | None => True end
  | SFor _ i _ st b => no_self i /\ no_self st /\ no_self b
  | _ => True
  end.
