(** * Formatting a compile error: /repo/tiny/src/util.c:35-104

    The caller's buffer is a list of bytes; a write outside it is [UB].
    [snprintf] is modelled at byte level for the conversions used ([%c], [%s],
    [%d]); the caller's own format and arguments are the already formatted
    text [msg].  Forming the pointer [buf + used] past the end of the buffer
    is not counted as an access. *)
From Coq Require Import DecimalString Decimal.
From Verif Require Import Base Pos.
Local Open Scope nat_scope.

(** The [%d] conversion. *)
Definition dec (n : nat) : text := text_of (NilZero.string_of_uint (Nat.to_uint n)).

Definition write_text (b : text) (off : nat) (s : text) : outcome text :=
  if off + length s <=? length b
  then Ok (firstn off b ++ s ++ skipn (off + length s) b)
  else UB.

(** C standard: [snprintf(buf + off, rem, ...)] whose full output is [s] *)
Definition snprintf (b : text) (off rem : nat) (s : text) : outcome (text * nat) :=
  match rem with
  | O => Ok (b, length s)
  | S r => (b' <- write_text b off (firstn r s ++ ["000"%char]) ;; Ok (b', length s))%outcome
  end.

Record out := mkOut { ob : text; oused : nat }.

(** util.c:42-49 [APPEND]; the clamp of a negative remainder is nat subtraction *)
Definition append (o : out) (s : text) : outcome out :=
  (' (b, n) <- snprintf (ob o) (oused o) (length (ob o) - oused o) s ;;
   Ok (mkOut b (oused o + n)))%outcome.

(** util.c:75-78, the inner loop copying a line; returns what is left *)
Fixpoint copy_line (o : out) (src : text) : outcome (out * text) :=
  match src with
  | [] => Ok (o, [])
  | c :: src' =>
      if Ascii.eqb c newline then Ok (o, src)
      else (o' <- append o [c] ;; copy_line o' src')%outcome
  end.

Definition near (line cur : nat) : bool := (line - cur <=? 3) && (cur - line <=? 3).

Definition tab : ascii := "009"%char.

(** util.c:67-92, the loop over the source *)
Fixpoint fmt_lines (fuel : nat) (o : out) (src : text) (line cur : nat) : outcome out :=
  match fuel with
  | O => Fuel
  | S fuel' =>
      match src with
      | [] => Ok o
      | c :: src' =>
          if near line cur then
            (o1 <- (if cur =? line then append o (dec cur ++ text_of " ->" ++ [tab])
                    else append o (dec cur ++ [tab])) ;;
             ' (o2, rest) <- copy_line o1 src ;;
             match rest with
             | [] => fmt_lines fuel' o2 [] line (S cur)
             | _ :: rest' =>
                 o3 <- append o2 [newline] ;;
                 fmt_lines fuel' o3 rest' line (S cur)
             end)%outcome
          else fmt_lines fuel' o src' line (if Ascii.eqb c newline then S cur else cur)
      end
  end.

(** util.c:35-104 [Tiny_FormatErrorV]; [src = None] for a NULL source *)
Definition format_error (buf : text) (file : text) (src : option text) (pos : Z) (msg : text)
  : outcome text :=
  (o0 <- append (mkOut buf 0) [newline] ;;
   o <- match src with
        | Some s =>
            line <- translate_pos s pos ;;
            o1 <- fmt_lines (S (length s)) o0 s line 1 ;;
            o2 <- append o1 [newline] ;;
            o3 <- append o2 (text_of "ERROR " ++ file ++ text_of "(" ++ dec line ++ text_of "): ") ;;
            o4 <- append o3 msg ;;
            append o4 [newline]
        | None =>
            o1 <- append o0 (text_of "ERROR: ") ;;
            o2 <- append o1 msg ;;
            append o2 [newline]
        end ;;
   Ok (ob o))%outcome.

Example fmt_ex :
  match format_error (repeat "x"%char 64) (text_of "f") (Some (text_of "a" ++ [newline] ++ text_of "b")) 2 (text_of "bad")
  with Ok b => string_of_list_ascii b | _ => ""%string end =
  string_of_list_ascii ([newline] ++ text_of "1" ++ [tab] ++ text_of "a" ++ [newline] ++ text_of "2 ->" ++ [tab]
   ++ text_of "b" ++ [newline] ++ text_of "ERROR f(2): bad" ++ [newline; "000"%char] ++ repeat "x"%char 35).
Proof. vm_compute. reflexivity. Qed.
