(** * Lexer: /repo/tiny/src/lexer.c

    The source is a C string: the model's [text] is the part before the
    terminator.  The state keeps the unread suffix [lx_rest] together with the
    offset [lx_pos] of its first character, so [src[pos]] is the head of
    [lx_rest] (the terminator when it is empty) and reading any further is out
    of bounds.  [lx_last = None] stands for the value 0 of [l->last]. *)
From Verif Require Import Base Float64 Token.

Record lexst := mkLex {
  lx_rest : text;          (* src + pos *)
  lx_pos : Z;              (* l->pos *)
  lx_last : option ascii;  (* l->last *)
  lx_line : Z;             (* l->lineNumber *)
  lx_lexeme : option text; (* l->lexeme, None = NULL *)
  lx_b : bool;             (* l->bValue *)
  lx_i : Z;                (* l->iValue *)
  lx_f : Z                 (* l->fValue, as the bits of the widened double *)
}.

Definition tt1 (s : string) : ascii :=
  match s with String c _ => c | EmptyString => "000"%char end.

(** <ctype.h> in the "C" locale.  Characters above 127 arrive as negative
    ints; the C standard leaves the classification undefined, glibc answers
    false, which is what the model takes. *)
Definition is_space (c : ascii) : bool :=
  let n := N_of_ascii c in ((n =? 32) || ((9 <=? n) && (n <=? 13)))%N.
Definition is_digit (c : ascii) : bool :=
  let n := N_of_ascii c in ((48 <=? n) && (n <=? 57))%N.
Definition is_alpha (c : ascii) : bool :=
  let n := N_of_ascii c in
  (((65 <=? n) && (n <=? 90)) || ((97 <=? n) && (n <=? 122)))%N.
Definition is_alnum (c : ascii) : bool := is_alpha c || is_digit c.
Definition is_xdigit (c : ascii) : bool :=
  let n := N_of_ascii c in
  (is_digit c || ((65 <=? n) && (n <=? 70)) || ((97 <=? n) && (n <=? 102)))%N.

Definition ceqb (a b : ascii) : bool := Ascii.eqb a b.
Definition ch_nl : ascii := "010".
Definition ch_quote : ascii := "039".
Definition ch_dquote : ascii := "034".
Definition ch_bslash : ascii := "092".

(** lexer.c:29-42 [Tiny_InitLexer] *)
Definition init_lexer (src : text) : lexst :=
  mkLex src 0 (Some " "%char) 1 None false 0 0.

(** Outcome of fetching a token.  [LHang] stands for the infinite loop of
    lexer.c:272-277 on an unterminated string literal. *)
Inductive lexres :=
| LTok (k : tokkind) (l : lexst)
| LHang.

(** lexer.c:15-18 [GetChar] *)
Definition get_char (rest : text) (pos : Z) : option ascii * text * Z :=
  match rest with
  | [] => (None, [], pos)
  | c :: r => (Some c, r, pos + 1)
  end.

(** lexer.c:45-65: the whitespace loop, the comment loop and the restart after
    a comment, as one structural recursion on the unread text. [cmt] says
    whether the comment loop (lines 55-57) is running. *)
Fixpoint skip_trivia (cmt : bool) (last : option ascii) (rest : text) (pos line : Z)
  : option ascii * text * Z * Z :=
  match last with
  | None => (None, rest, pos, line)
  | Some c =>
      if cmt then
        (* inside // comment: consume; a newline ends it and counts a line *)
        let line' := if ceqb c ch_nl then line + 1 else line in
        match rest with
        | [] => (None, [], pos, line')
        | d :: r => skip_trivia (negb (ceqb c ch_nl)) (Some d) r (pos + 1) line'
        end
      else if is_space c then
        let line' := if ceqb c ch_nl then line + 1 else line in
        match rest with
        | [] => (None, [], pos, line')
        | d :: r => skip_trivia false (Some d) r (pos + 1) line'
        end
      else
        match rest with
        | d :: r =>
            if ceqb c "/" && ceqb d "/" then
              skip_trivia true (Some d) r (pos + 1) line
            else (last, rest, pos, line)
        | [] => (last, rest, pos, line)
        end
  end.

(** lexer.c:89-112 the MATCH2 table, in order *)
Definition match2_table : list (ascii * ascii * tokkind) :=
  [ ("&"%char, "&"%char, LOG_AND); ("|"%char, "|"%char, LOG_OR);
    (":"%char, "="%char, DECLARE); (":"%char, ":"%char, DECLARECONST);
    ("+"%char, "="%char, PLUSEQUAL); ("-"%char, "="%char, MINUSEQUAL);
    ("*"%char, "="%char, STAREQUAL); ("/"%char, "="%char, SLASHEQUAL);
    ("%"%char, "="%char, PERCENTEQUAL); ("|"%char, "="%char, OREQUAL);
    ("&"%char, "="%char, ANDEQUAL);
    ("="%char, "="%char, EQUALS); ("!"%char, "="%char, NOTEQUALS);
    ("<"%char, "="%char, LTE); (">"%char, "="%char, GTE);
    ("-"%char, ">"%char, ARROW);
    ("<"%char, "<"%char, SHIFT_LEFT); (">"%char, ">"%char, SHIFT_RIGHT) ].

(** lexer.c:125-146 the MATCH table, in order *)
Definition match1_table : list (ascii * tokkind) :=
  [ ("("%char, OPENPAREN); (")"%char, CLOSEPAREN); ("{"%char, OPENCURLY);
    ("}"%char, CLOSECURLY); ("["%char, OPENSQUARE); ("]"%char, CLOSESQUARE);
    ("+"%char, PLUS); ("-"%char, MINUS); ("*"%char, STAR); ("/"%char, SLASH);
    ("%"%char, PERCENT); (">"%char, GT); ("<"%char, LT); ("="%char, EQUAL);
    ("!"%char, BANG); ("&"%char, AND); ("|"%char, OR); (","%char, COMMA);
    (";"%char, SEMI); (":"%char, COLON); ("."%char, DOT); ("?"%char, QUESTION) ].

Fixpoint find2 (t : list (ascii * ascii * tokkind)) (a b : ascii) : option tokkind :=
  match t with
  | [] => None
  | (x, y, k) :: t' => if ceqb a x && ceqb b y then Some k else find2 t' a b
  end.

Fixpoint find1 (t : list (ascii * tokkind)) (a : ascii) : option tokkind :=
  match t with
  | [] => None
  | (x, k) :: t' => if ceqb a x then Some k else find1 t' a
  end.

(** lexer.c:158-183 keywords, in order; the bool is the value of [bValue]. *)
Definition keyword_table : list (text * tokkind) :=
  [ (text_of "null", NULL); (text_of "true", BOOL); (text_of "false", BOOL);
    (text_of "if", IF); (text_of "func", FUNC); (text_of "foreign", FOREIGN);
    (text_of "return", RETURN); (text_of "while", WHILE); (text_of "for", FOR);
    (text_of "else", ELSE); (text_of "struct", STRUCT); (text_of "new", NEW);
    (text_of "cast", CAST); (text_of "break", BREAK); (text_of "continue", CONTINUE);
    (text_of "use", USE); (text_of "foreach", FOREACH) ].

Fixpoint find_kw (t : list (text * tokkind)) (s : text) : tokkind :=
  match t with
  | [] => IDENT
  | (x, k) :: t' => if text_eqb s x then k else find_kw t' s
  end.

(** lexer.c:151-154: identifier characters.  Returns the lexeme (reversed
    accumulator), the new [last], rest and pos. *)
Fixpoint lex_ident (acc : text) (last : option ascii) (rest : text) (pos : Z)
  : text * option ascii * text * Z :=
  match last with
  | Some c =>
      if is_alnum c || ceqb c "_" then
        match rest with
        | [] => (rev (c :: acc), None, [], pos)
        | d :: r => lex_ident (c :: acc) (Some d) r (pos + 1)
        end
      else (rev acc, last, rest, pos)
  | None => (rev acc, None, rest, pos)
  end.

(** lexer.c:194-204: number characters *)
Fixpoint lex_number (acc : text) (isHex isFloat : bool) (last : option ascii)
    (rest : text) (pos : Z) : text * bool * bool * option ascii * text * Z :=
  match last with
  | Some c =>
      if is_digit c || (ceqb c "x" && negb isHex) || (isHex && is_xdigit c)
         || (ceqb c "." && negb isFloat) then
        let isHex' := if ceqb c "x" then true else isHex in
        let isFloat' := if ceqb c "x" then isFloat
                        else if ceqb c "." then true else isFloat in
        match rest with
        | [] => (rev (c :: acc), isHex', isFloat', None, [], pos)
        | d :: r => lex_number (c :: acc) isHex' isFloat' (Some d) r (pos + 1)
        end
      else (rev acc, isHex, isFloat, last, rest, pos)
  | None => (rev acc, isHex, isFloat, None, rest, pos)
  end.

(** C library number parsing on the lexemes the loop above can produce. *)
Definition digit_val (c : ascii) : Z :=
  let n := Z.of_N (N_of_ascii c) in
  if is_digit c then n - 48
  else if 97 <=? n then n - 87 else n - 55.

Fixpoint parse_int (base : Z) (ok : ascii -> bool) (acc : Z) (s : text) : Z * text :=
  match s with
  | c :: s' => if ok c then parse_int base ok (acc * base + digit_val c) s' else (acc, s)
  | [] => (acc, [])
  end.

Definition sat_long (z : Z) : Z := Z.min z (2^63 - 1).

(** strtol(s, NULL, 10) on a digit string *)
Definition strtol10 (s : text) : Z := sat_long (fst (parse_int 10 is_digit 0 s)).

Definition hex_prefix (s : text) : option text :=
  match s with
  | c :: x :: r => if ceqb c "0" && ceqb x "x" then Some r else None
  | _ => None
  end.

(** strtoll(s, NULL, 16): an optional 0x prefix, used only if a hex digit follows *)
Definition strtoll16 (s : text) : Z :=
  match hex_prefix s with
  | Some (d :: r) =>
      if is_xdigit d then sat_long (fst (parse_int 16 is_xdigit 0 (d :: r))) else 0
  | Some [] => 0
  | None => sat_long (fst (parse_int 16 is_xdigit 0 s))
  end.

Definition parse_frac (base : Z) (ok : ascii -> bool) (s : text) : Z * Z :=
  let '(ip, r) := parse_int base ok 0 s in
  match r with
  | c :: r' =>
      if ceqb c "." then
        let '(fp, r'') := parse_int base ok ip r' in
        (fp, base ^ (Z.of_nat (List.length r' - List.length r'')%nat))
      else (ip, 1)
  | [] => (ip, 1)
  end.

(** strtod(s, NULL) on digit-dot lexemes (decimal, or 0x hex) *)
Definition strtod (s : text) : Z :=
  let dec := let '(n, d) := parse_frac 10 is_digit s in f_of_ratio n d in
  match hex_prefix s with
  | Some r =>
      let go := let '(n, d) := parse_frac 16 is_xdigit r in f_of_ratio n d in
      match r with
      | c :: r' =>
          if is_xdigit c then go
          else if ceqb c "." then
            match r' with d :: _ => if is_xdigit d then go else dec | [] => dec end
          else dec
      | [] => dec
      end
  | None => dec
  end.

(** lexer.c:225-244, the escape table: maps the character after a backslash *)
Definition escape (c : ascii) : ascii :=
  if ceqb c "t" then "009"%char
  else if ceqb c "n" then "010"%char
  else if ceqb c "r" then "013"%char
  else if ceqb c "b" then "008"%char
  else c.

(** lexer.c:272-277: string literal body after the opening quote.
    [None]: the loop never ends (it pushes NULs for ever). *)
Fixpoint lex_string (acc : text) (last : ascii) (rest : text) (pos : Z)
  : option (text * text * Z) :=
  if ceqb last ch_dquote then Some (rev acc, rest, pos)
  else if ceqb last ch_bslash then
    match rest with
    | e :: d :: r => lex_string (escape e :: acc) d r (pos + 2)
    | _ => None
    end
  else
    match rest with
    | d :: r => lex_string (last :: acc) d r (pos + 1)
    | [] => None
    end.

(** lexer.c:248-265 after the opening quote has been read into [last]:
    CHECK_ESCAPE, then the value, then the closing quote. *)
Definition lex_char (l : lexst) (rest : text) (pos : Z) : lexres :=
  let '(c1, r1, p1) := get_char rest pos in
  let '(c2, r2, p2) :=
    match c1 with
    | Some c => if ceqb c ch_bslash then
                  let '(e, r, p) := get_char r1 p1 in (option_map escape e, r, p)
                else (c1, r1, p1)
    | None => (c1, r1, p1)
    end in
  let v := match c2 with Some c => char_val c | None => 0 end in
  let '(c3, r3, p3) := get_char r2 p2 in
  match c3 with
  | Some q =>
      if ceqb q ch_quote then
        let '(c4, r4, p4) := get_char r3 p3 in
        LTok CHAR (mkLex r4 p4 c4 (lx_line l) (lx_lexeme l) (lx_b l) v (lx_f l))
      else LTok LEXER_ERROR (mkLex r3 p3 c3 (lx_line l) (lx_lexeme l) (lx_b l) v (lx_f l))
  | None => LTok LEXER_ERROR (mkLex r3 p3 c3 (lx_line l) (lx_lexeme l) (lx_b l) v (lx_f l))
  end.

Definition set_tok (l : lexst) (last : option ascii) (rest : text) (pos : Z)
    (lexeme : text) : lexst :=
  mkLex rest pos last (lx_line l) (Some lexeme) (lx_b l) (lx_i l) (lx_f l).

(** lexer.c:67-287: one token starting at a non-blank, non-comment character
    [c] (already in [l->last]); [rest]/[pos] are what follows it. *)
Definition lex_core (l : lexst) (c : ascii) (rest : text) (pos : Z) : lexres :=
  let is_ellipsis :=
    match rest with
    | c1 :: c2 :: _ => ceqb c "." && ceqb c1 "." && ceqb c2 "."
    | _ => false
    end in
  if is_ellipsis then
    let '(n, r, p) := get_char (skipn 2 rest) (pos + 2) in
    LTok ELLIPSIS (set_tok l n r p (text_of "..."))
  else
  let m2 := match rest with c1 :: _ => find2 match2_table c c1 | [] => None end in
  match m2, rest with
  | Some k, c1 :: r1 =>
      let '(n, r, p) := get_char r1 (pos + 1) in
      LTok k (set_tok l n r p [c; c1])
  | _, _ =>
  match find1 match1_table c with
  | Some k =>
      let '(n, r, p) := get_char rest pos in
      LTok k (set_tok l n r p [c])
  | None =>
  if is_alpha c then
    let '(s, n, r, p) := lex_ident [] (Some c) rest pos in
    let k := find_kw keyword_table s in
    let l' := set_tok l n r p s in
    LTok k (match k with
            | BOOL => mkLex r p n (lx_line l) (Some s) (text_eqb s (text_of "true"))
                            (lx_i l) (lx_f l)
            | _ => l'
            end)
  else if is_digit c then
    let '(s, isHex, isFloat, n, r, p) := lex_number [] false false (Some c) rest pos in
    if isFloat then
      LTok FLOAT (mkLex r p n (lx_line l) (Some s) (lx_b l) (lx_i l) (f_single (strtod s)))
    else
      let v := if isHex then wrap32 (strtoll16 s) else wrap32 (strtol10 s) in
      LTok INT (mkLex r p n (lx_line l) (Some s) (lx_b l) v (lx_f l))
  else if ceqb c ch_quote then lex_char l rest pos
  else if ceqb c ch_dquote then
    match rest with
    | [] => LHang
    | d :: r =>
        match lex_string [] d r (pos + 1) with
        | None => LHang
        | Some (s, r', p') =>
            let '(n, r'', p'') := get_char r' p' in
            LTok STRING (set_tok l n r'' p'' s)
        end
    end
  else
    LTok LEXER_ERROR (mkLex rest pos (Some c) (lx_line l) (lx_lexeme l) (lx_b l) (lx_i l) (lx_f l))
  end end.

(** lexer.c:44-290 [GetToken] / [Tiny_GetToken] *)
Definition get_token (l : lexst) : lexres :=
  let '(last, rest, pos, line) :=
    skip_trivia false (lx_last l) (lx_rest l) (lx_pos l) (lx_line l) in
  let l' := mkLex rest pos last line (lx_lexeme l) (lx_b l) (lx_i l) (lx_f l) in
  match last with
  | None => LTok TEOF l'
  | Some c => lex_core l' c rest pos
  end.

(** What the parser can observe of the lexer after fetching a token. *)
Record token := mkTok {
  tk : tokkind;
  tk_pos : Z;
  tk_line : Z;
  tk_lexeme : option text;
  tk_b : bool;
  tk_i : Z;
  tk_f : Z
}.

Definition snapshot (k : tokkind) (l : lexst) : token :=
  mkTok k (lx_pos l) (lx_line l) (lx_lexeme l) (lx_b l) (lx_i l) (lx_f l).

(** The token stream of a source.  The parser pulls tokens one at a time and
    the lexer does not depend on the parser, so the stream can be computed
    ahead.  At [TEOF], and at a [LEXER_ERROR] that consumed nothing, the lexer
    no longer moves and repeats its last token for ever: [ts_end]. *)
Inductive stream_end := SRepeat (t : token) | SHang | SFuel.

Definition lex_moved (l l' : lexst) : bool :=
  negb ((lx_pos l =? lx_pos l') &&
        match lx_last l, lx_last l' with
        | Some a, Some b => ceqb a b
        | None, None => true
        | _, _ => false
        end).

Fixpoint lex_stream (fuel : nat) (l : lexst) : list token * stream_end :=
  match fuel with
  | O => ([], SFuel)
  | S n =>
      match get_token l with
      | LHang => ([], SHang)
      | LTok k l' =>
          match k with
          | TEOF => ([], SRepeat (snapshot k l'))
          | LEXER_ERROR =>
              if lex_moved l l' then
                let '(ts, e) := lex_stream n l' in (snapshot k l' :: ts, e)
              else ([], SRepeat (snapshot k l'))
          | _ =>
              let '(ts, e) := lex_stream n l' in (snapshot k l' :: ts, e)
          end
      end
  end.

(** Every token but the repeating one consumes at least one character, so this
    fuel is enough (theorem in LexerProofs). *)
Definition lex_all (src : text) : list token * stream_end :=
  lex_stream (List.length src + 3) (init_lexer src).

Definition kinds (src : string) : list tokkind := map tk (fst (lex_all (text_of src))).

Example lex_ex1 :
  kinds "x := 10 + 0x1F // hi
 y(...) 1.5" = [IDENT; DECLARE; INT; PLUS; INT; IDENT; OPENPAREN; ELLIPSIS; CLOSEPAREN; FLOAT].
Proof. vm_compute. reflexivity. Qed.
