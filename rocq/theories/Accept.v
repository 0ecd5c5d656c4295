(** * What else a well-typed program needs in order to compile

    Well-typed statements (Typing.v) may still be rejected: for the number of
    arguments of a call, for a target that cannot be assigned to, for too many
    local variables.  [fine_s] lists these conditions; Props_Accept.v proves that
    together with the grammar and the typing rules they are all there is. *)
From Verif Require Import Base Token Values Syntax Symbols Typing.
Local Open Scope nat_scope.

(** A function can be called with [n] arguments: a foreign function with as many
    as it has parameters, or more if it is variadic; for a Tiny function the
    number is not checked here (too many are a type error, too few are accepted:
    finding F14). *)
Inductive takes : symbody -> nat -> Prop :=
| takes_tiny i args locals ret n : takes (SyFunc i args locals ret) n
| takes_foreign i params va ret c n : length params = n \/ (va = true /\ length params <= n) -> takes (SyForeign i params va ret c) n.

Section Fine.
Variable t : tbl.

Definition call_fine (f : text) (n : nat) : Prop :=
  n <= 255 /\ exists y, function_named t f y /\ takes (sy_body y) n.
Definition id_fine (f : nat) (n : nat) : Prop := exists name b, denotes t f name b /\ takes b n.

Fixpoint fine_e (e : texpr) : Prop :=
  let all := fix all (es : list texpr) : Prop := match es with [] => True | e :: es' => fine_e e /\ all es' end in
  (* of several initialisers for one field only the first counts *)
  let firsts := fix firsts (seen names : list text) (es : list texpr) {struct es} : Prop :=
    match es with
    | [] => True
    | e :: es' => match names with [] => True | x :: names' => (In x seen \/ fine_e e) /\ firsts (x :: seen) names' es' end
    end in
  match e with
  | TNull | TBool _ | TChar _ | TInt _ | TFloat _ | TStr _ | TId _ _ => True
  | TDot e _ _ | TCast e _ | TParen e | TUn _ e _ => fine_e e
  | TBin _ l r _ => fine_e l /\ fine_e r
  | TTern c a b _ => fine_e c /\ fine_e a /\ fine_e b
  | TCall f args _ => all args /\ call_fine f (length args)
  | TIndex a i getf _ _ => fine_e a /\ fine_e i /\ id_fine getf 2
  | TNew _ [] args => all args
  | TNew _ names args => firsts [] names args
  end.

(** What can be assigned to: variables that are not constants, fields, and index
    expressions if there is a function for it *)
Definition target_fine (compound : bool) (l r : texpr) : Prop :=
  match l with
  | TId (RConst _) _ => False
  | TId _ _ => fine_e r
  | TDot o _ _ => fine_e o /\ fine_e r
  | TIndex a i getf setf _ => fine_e a /\ fine_e i /\ (compound = true -> id_fine getf 2) /\ fine_e r /\
      exists f, setf = Some f /\ id_fine f 3
  | _ => False
  end.
Definition is_compound (op : tokkind) : bool :=
  match op with
  | PLUSEQUAL | MINUSEQUAL | STAREQUAL | SLASHEQUAL | PERCENTEQUAL | ANDEQUAL | OREQUAL => true
  | _ => false
  end.

Definition locals_fine (f : nat) : Prop :=
  exists name i args locals ret, denotes t f name (SyFunc i args locals ret) /\ length locals <= 255.

Fixpoint fine_s (s : tstmt) : Prop :=
  let all := fix all (ss : list tstmt) : Prop := match ss with [] => True | s :: ss' => fine_s s /\ all ss' end in
  match s with
  | TSCall _ f args => fine_e (TCall f args GVoid)
  | TSDecl _ v e => target_fine false (TId v (tag_of e)) e
  | TSAsg _ op l r => target_fine (is_compound op) l r
  | TSConst _ | TSUse _ | TSBreak _ | TSContinue _ => True
  | TSBad _ => False
  | TSBlock _ ss => all ss
  | TSProc _ f b => locals_fine f /\ fine_s b
  | TSIf _ c a b => fine_e c /\ fine_s a /\ match b with Some b' => fine_s b' | None => True end
  | TSWhile _ c b => fine_e c /\ fine_s b
  | TSFor _ i c st b => fine_s i /\ fine_e c /\ fine_s b /\ fine_s st
  | TSReturn _ (Some e) => fine_e e
  | TSReturn _ None => True
  end.
End Fine.

(** Every structure named since [old] has got its fields. *)
Definition structs_defined (old t : tbl) : Prop :=
  forall id name d fs, denotes t id name (SyStruct d fs) -> (forall nm b, ~ denotes old id nm b) -> d = true.
