(** * What an error message says *)
From Verif Require Import Base Pos ErrFmt.
Local Open Scope nat_scope.

(** The lines of a source, each with its newline; no empty last line. *)
Fixpoint lines_from (acc : text) (src : text) : list text :=
  match src with
  | [] => match acc with [] => [] | _ => [acc] end
  | c :: src' =>
      if Ascii.eqb c newline then (acc ++ [c]) :: lines_from [] src'
      else lines_from (acc ++ [c]) src'
  end.
Definition lines (src : text) : list text := lines_from [] src.

(** Line number [n] of a message about line [line]. *)
Definition shown_line (line n : nat) (l : text) : text :=
  if (n <=? line + 3) && (line <=? n + 3) then
    dec n ++ (if n =? line then text_of " ->" else []) ++ [tab] ++ l
  else [].

Fixpoint shown (line n : nat) (ls : list text) : text :=
  match ls with
  | [] => []
  | l :: ls' => shown_line line n l ++ shown line (S n) ls'
  end.

Definition error_text (file src msg : text) (line : nat) : text :=
  [newline] ++ shown line 1 (lines src) ++ [newline] ++
  text_of "ERROR " ++ file ++ text_of "(" ++ dec line ++ text_of "): " ++ msg ++ [newline].

Definition error_text_nosrc (msg : text) : text :=
  [newline] ++ text_of "ERROR: " ++ msg ++ [newline].

(** The buffer after printing [full] into [buf]: the longest prefix that
    leaves room for the terminator, the terminator, and the old bytes. *)
Definition printed (buf full : text) : text :=
  match length buf with
  | O => []
  | S n => let shown := firstn n full in shown ++ "000"%char :: skipn (S (length shown)) buf
  end.
