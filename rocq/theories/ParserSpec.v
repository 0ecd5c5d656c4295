(** * The size of what the parser builds: one per node of the tree *)
From Verif Require Import Base Token Syntax.
Local Open Scope nat_scope.

Fixpoint nodes (e : expr) : nat :=
  match e with
  | ECall _ args | ENew _ _ args => S (fold_right (fun e n => nodes e + n) 0 args)
  | EBin _ l r => S (nodes l + nodes r)
  | EUn _ e | EParen e | ECast e _ | EDot e _ => S (nodes e)
  | EIndex a i => S (nodes a + nodes i)
  | ETern c a b => S (nodes c + nodes a + nodes b)
  | _ => 1
  end.
Definition nodes_all (es : list expr) : nat := fold_right (fun e n => nodes e + n) 0 es.

Fixpoint snodes (s : stmt) : nat :=
  match s with
  | SCall _ _ args => S (nodes_all args)
  | SAsg _ _ l r => S (nodes l + nodes r)
  | SBlock _ ss => S (fold_right (fun s n => snodes s + n) 0 ss)
  | SProc _ _ b => S (snodes b)
  | SIf _ c a None => S (nodes c + snodes a)
  | SIf _ c a (Some b) => S (nodes c + snodes a + snodes b)
  | SWhile _ c b => S (nodes c + snodes b)
  | SFor _ i c st b => S (snodes i + nodes c + snodes st + snodes b)
  | SReturn _ (Some e) => S (nodes e)
  | _ => 1
  end.
Definition snodes_all (ss : list stmt) : nat := fold_right (fun s n => snodes s + n) 0 ss.
