(** * The lexer at the level of memory accesses: /repo/tiny/src/lexer.c

    The source is an array of [length src + 1] readable bytes, the last one
    the terminator; every read goes through [rd], which is [UB] outside it.
    [None] stands for the value 0.  Loops run on explicit fuel.
    [LexerCProofs] relates this to the structural model of Lexer.v. *)
From Verif Require Import Base Float64 Token Lexer.
Local Open Scope Z_scope.

Section Src.
Variable src : text.

Definition rd (i : Z) : outcome (option ascii) :=
  if (0 <=? i) && (i <=? Z.of_nat (List.length src)) then Ok (nth_error src (Z.to_nat i)) else UB.

(** lexer.h: the fields of [Tiny_Lexer] that [GetToken] changes *)
Record clex := mkC {
  c_pos : Z; c_last : option ascii; c_line : Z; c_lexeme : option text;
  c_b : bool; c_i : Z; c_f : Z }.

Definition set_last (l : clex) (pos : Z) (last : option ascii) : clex :=
  mkC pos last (c_line l) (c_lexeme l) (c_b l) (c_i l) (c_f l).
Definition set_line (l : clex) (n : Z) : clex :=
  mkC (c_pos l) (c_last l) n (c_lexeme l) (c_b l) (c_i l) (c_f l).
Definition set_lexeme (l : clex) (s : text) : clex :=
  mkC (c_pos l) (c_last l) (c_line l) (Some s) (c_b l) (c_i l) (c_f l).
Definition set_pos (l : clex) (p : Z) : clex :=
  mkC p (c_last l) (c_line l) (c_lexeme l) (c_b l) (c_i l) (c_f l).
Definition set_b (l : clex) (b : bool) : clex :=
  mkC (c_pos l) (c_last l) (c_line l) (c_lexeme l) b (c_i l) (c_f l).
Definition set_i (l : clex) (i : Z) : clex :=
  mkC (c_pos l) (c_last l) (c_line l) (c_lexeme l) (c_b l) i (c_f l).
Definition set_f (l : clex) (f : Z) : clex :=
  mkC (c_pos l) (c_last l) (c_line l) (c_lexeme l) (c_b l) (c_i l) f.

(** lexer.c:15-18 [GetChar], stored into [l->last] *)
Definition c_get_char (l : clex) : outcome clex :=
  (c <- rd (c_pos l) ;;
   match c with
   | Some _ => c' <- rd (c_pos l) ;; Ok (set_last l (c_pos l + 1) c')
   | None => Ok (set_last l (c_pos l) None)
   end)%outcome.

(** lexer.c:20 [Peek], 21-27 [Peek2] *)
Definition c_peek (l : clex) : outcome (option ascii) := rd (c_pos l).
Definition c_peek2 (l : clex) : outcome (option ascii) :=
  (c <- rd (c_pos l) ;;
   match c with None => Ok None | Some _ => rd (c_pos l + 1) end)%outcome.

Definition is_c (o : option ascii) (c : ascii) : bool :=
  match o with Some x => ceqb x c | None => false end.
Definition test (f : ascii -> bool) (o : option ascii) : bool :=
  match o with Some x => f x | None => false end.

(** sb_push(l->lexeme, c) without the terminator *)
Definition c_push (l : clex) (o : option ascii) : clex :=
  set_lexeme l (match c_lexeme l with Some s => s | None => [] end ++
                [match o with Some c => c | None => "000"%char end]).
(** lexer.c:11-13 [ResetLexeme] *)
Definition c_reset (l : clex) : clex := set_lexeme l [].

(** lexer.c:45-48 *)
Fixpoint c_blanks (fuel : nat) (l : clex) : outcome clex :=
  match fuel with
  | O => Fuel
  | S f =>
      if test is_space (c_last l) then
        let l1 := if is_c (c_last l) ch_nl then set_line l (c_line l + 1) else l in
        (l2 <- c_get_char l1 ;; c_blanks f l2)%outcome
      else Ok l
  end.

(** lexer.c:55-57 *)
Fixpoint c_comment (fuel : nat) (l : clex) : outcome clex :=
  match fuel with
  | O => Fuel
  | S f =>
      match c_last l with
      | Some c => if ceqb c ch_nl then Ok l else (l1 <- c_get_char l ;; c_comment f l1)%outcome
      | None => Ok l
      end
  end.

(** lexer.c:151-154 *)
Fixpoint c_ident (fuel : nat) (l : clex) : outcome clex :=
  match fuel with
  | O => Fuel
  | S f =>
      if test is_alnum (c_last l) || is_c (c_last l) "_" then
        (l1 <- c_get_char (c_push l (c_last l)) ;; c_ident f l1)%outcome
      else Ok l
  end.

(** lexer.c:194-204 *)
Fixpoint c_number (fuel : nat) (isHex isFloat : bool) (l : clex) : outcome (clex * bool * bool) :=
  match fuel with
  | O => Fuel
  | S f =>
      if test is_digit (c_last l) || (is_c (c_last l) "x" && negb isHex)
         || (isHex && test is_xdigit (c_last l)) || (is_c (c_last l) "." && negb isFloat) then
        let isHex' := if is_c (c_last l) "x" then true else isHex in
        let isFloat' := if is_c (c_last l) "x" then isFloat
                        else if is_c (c_last l) "." then true else isFloat in
        (l1 <- c_get_char (c_push l (c_last l)) ;; c_number f isHex' isFloat' l1)%outcome
      else Ok (l, isHex, isFloat)
  end.

(** lexer.c:221-246 [CHECK_ESCAPE] *)
Definition c_escape (l : clex) : outcome clex :=
  if is_c (c_last l) ch_bslash then
    (l1 <- c_get_char l ;; Ok (set_last l1 (c_pos l1) (option_map escape (c_last l1))))%outcome
  else Ok l.

(** lexer.c:272-277 *)
Fixpoint c_string (fuel : nat) (l : clex) : outcome clex :=
  match fuel with
  | O => Fuel
  | S f =>
      if is_c (c_last l) ch_dquote then Ok l
      else
        (l1 <- c_escape l ;;
         l2 <- c_get_char (c_push l1 (c_last l1)) ;;
         c_string f l2)%outcome
  end.

(** lexer.c:76-112: the MATCH2 lines, in order *)
Fixpoint c_match2 (t : list (ascii * ascii * tokkind)) (l : clex) : outcome (option tokkind) :=
  match t with
  | [] => Ok None
  | (x, y, k) :: t' =>
      if is_c (c_last l) x then
        (p <- c_peek l ;; if is_c p y then Ok (Some k) else c_match2 t' l)%outcome
      else c_match2 t' l
  end.

Fixpoint c_match1 (t : list (ascii * tokkind)) (l : clex) : option tokkind :=
  match t with
  | [] => None
  | (x, k) :: t' => if is_c (c_last l) x then Some k else c_match1 t' l
  end.

Definition the (o : option ascii) : ascii := match o with Some c => c | None => "000"%char end.
Definition lexeme_of (l : clex) : text := match c_lexeme l with Some s => s | None => [] end.

(** lexer.c:44-290 [Tiny_GetToken] *)
Fixpoint c_get_token (fuel : nat) (l : clex) : outcome (tokkind * clex) :=
  match fuel with
  | O => Fuel
  | S f =>
  (l <- c_blanks fuel l ;;
   match c_last l with
   | None => Ok (TEOF, l)
   | Some c =>
   p <- (if ceqb c "/" then c_peek l else Ok None) ;;
   if ceqb c "/" && is_c p "/" then
     l1 <- c_comment fuel l ;;
     l2 <- (match c_last l1 with
            | Some _ => l2 <- c_get_char l1 ;; Ok (set_line l2 (c_line l2 + 1))
            | None => Ok l1
            end) ;;
     c_get_token f l2
   else
   e1 <- (if ceqb c "." then c_peek l else Ok None) ;;
   e2 <- (if ceqb c "." && is_c e1 "." then c_peek2 l else Ok None) ;;
   if ceqb c "." && is_c e1 "." && is_c e2 "." then
     let l1 := set_lexeme l (text_of "...") in
     l2 <- c_get_char (set_pos l1 (c_pos l1 + 2)) ;;
     Ok (ELLIPSIS, l2)
   else
   k2 <- c_match2 match2_table l ;;
   match k2 with
   | Some k =>
       p <- c_peek l ;;
       let l1 := set_lexeme l [c; the p] in
       l2 <- c_get_char (set_pos l1 (c_pos l1 + 1)) ;;
       Ok (k, l2)
   | None =>
   match c_match1 match1_table l with
   | Some k => l1 <- c_get_char (set_lexeme l [c]) ;; Ok (k, l1)
   | None =>
   if is_alpha c then
     l1 <- c_ident fuel (c_reset l) ;;
     let k := find_kw keyword_table (lexeme_of l1) in
     Ok (k, match k with BOOL => set_b l1 (text_eqb (lexeme_of l1) (text_of "true")) | _ => l1 end)
   else if is_digit c then
     ' (l1, isHex, isFloat) <- c_number fuel false false (c_reset l) ;;
     if isFloat : bool then Ok (FLOAT, set_f l1 (f_single (strtod (lexeme_of l1))))
     else if isHex : bool then Ok (INT, set_i l1 (wrap32 (strtoll16 (lexeme_of l1))))
     else Ok (INT, set_i l1 (wrap32 (strtol10 (lexeme_of l1))))
   else if ceqb c ch_quote then
     l1 <- c_get_char l ;;
     l2 <- c_escape l1 ;;
     let l3 := set_i l2 (match c_last l2 with Some c => char_val c | None => 0 end) in
     l4 <- c_get_char l3 ;;
     if is_c (c_last l4) ch_quote then l5 <- c_get_char l4 ;; Ok (CHAR, l5)
     else Ok (LEXER_ERROR, l4)
   else if ceqb c ch_dquote then
     l1 <- c_get_char (c_reset l) ;;
     l2 <- c_string fuel l1 ;;
     l3 <- c_get_char l2 ;;
     Ok (STRING, l3)
   else Ok (LEXER_ERROR, l)
   end end end)%outcome
  end.

(** lexer.c:29-42 [Tiny_InitLexer] *)
Definition c_init : clex := mkC 0 (Some " "%char) 1 None false 0 0.

End Src.

(** Reading [n] tokens one after the other, with what the parser can see of
    each (tiny.c:1607 [GetNextToken] keeps no other state). *)
Definition c_snapshot (k : tokkind) (l : clex) : token :=
  mkTok k (c_pos l) (c_line l) (c_lexeme l) (c_b l) (c_i l) (c_f l).

Fixpoint ask (src : text) (fuel n : nat) (l : clex) : outcome (list token * clex) :=
  match n with
  | O => Ok ([], l)
  | S n' =>
      (' (k, l1) <- c_get_token src fuel l ;;
       ' (ts, l2) <- ask src fuel n' l1 ;;
       Ok (c_snapshot k l1 :: ts, l2))%outcome
  end.
