(** * Source positions: /repo/tiny/src/util.c:18-33 and /repo/tiny/src/pos.c

    A source is a C string: [src] holds the characters before the NUL.
    Line numbers are unbounded here (C: [int], [uint32_t]); they never exceed
    the source length + 1. *)
From Verif Require Import Base.
Local Open Scope nat_scope.

Definition newline : ascii := "010"%char.

(** util.c:22-30, the loop of [Tiny_TranslatePosToLineNumber]: [n] steps from
    [curPos]; running into the terminator fails the assert. *)
Fixpoint translate_loop (src : text) (n : nat) (line : nat) : outcome nat :=
  match n with
  | O => Ok line
  | S n' =>
      match src with
      | [] => Abort
      | c :: src' => translate_loop src' n' (if Ascii.eqb c newline then S line else line)
      end
  end.

(** util.c:18-33; a negative [pos] runs no iteration *)
Definition translate_pos (src : text) (pos : Z) : outcome nat :=
  translate_loop src (Z.to_nat pos) 1.

(** strchr(s, '\n') as an offset *)
Fixpoint find_newline (s : text) : option nat :=
  match s with
  | [] => None
  | c :: s' =>
      if Ascii.eqb c newline then Some 0
      else match find_newline s' with Some n => Some (S n) | None => None end
  end.

(** pos.c:14-35, the loop of [Tiny_PosToFriendlyPos]: [start] is the offset of
    [src] in the whole text, [fuel] bounds the lines. *)
Fixpoint friendly_loop (fuel : nat) (src : text) (start pos line : nat) : outcome (nat * nat) :=
  match fuel with
  | O => Fuel
  | S fuel' =>
      let here :=
        oassert (start <=? pos) (Ok (line, pos - start)) in
      match find_newline src with
      | None => here
      | Some n =>
          if pos <=? start + n then here
          else friendly_loop fuel' (skipn (S n) src) (start + S n) pos (S line)
      end
  end.

(** pos.c:6-38; [srcLen] is the caller's length of [src] *)
Definition friendly_pos (src : text) (srcLen pos : nat) : outcome (nat * nat) :=
  oassert (pos <? srcLen) (friendly_loop (S (length src)) src 0 pos 0).
