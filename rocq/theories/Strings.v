(** * The table of constant strings: /repo/tiny/src/tiny.c:692-701

    Texts are C strings: [strcmp] and [CloneString] see them up to their first
    NUL. *)
From Verif Require Import Base Values.
Local Open Scope nat_scope.

(** detail.h:9 *)
Definition max_strings : nat := 1024.

(** tiny.c:693-695, the search loop: first index whose string is [s] *)
Fixpoint find_string (tbl : list text) (s : text) (i : nat) : option nat :=
  match tbl with
  | [] => None
  | t :: tbl' => if text_eqb t s then Some i else find_string tbl' s (S i)
  end.

(** tiny.c:692-701 [RegisterString] *)
Definition register_string (tbl : list text) (s : text) : outcome (list text * nat) :=
  let s := until_nul s in
  match find_string tbl s 0 with
  | Some i => Ok (tbl, i)
  | None => oassert (length tbl <? max_strings) (Ok (tbl ++ [s], length tbl))
  end.

Fixpoint register_all (tbl : list text) (ss : list text) : outcome (list text * list nat) :=
  match ss with
  | [] => Ok (tbl, [])
  | s :: ss' =>
      (' (t1, i) <- register_string tbl s ;;
       ' (t2, is) <- register_all t1 ss' ;;
       Ok (t2, i :: is))%outcome
  end.
