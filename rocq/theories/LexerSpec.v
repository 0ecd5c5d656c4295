(** * What the lexer owes its callers *)
From Coq Require Import DecimalString HexadecimalString.
From Verif Require Import Base Float64 Token Lexer LexerC Pos PosProofs.
Local Open Scope Z_scope.

(** ** Text between tokens *)
Definition blank (c : ascii) : Prop :=
  In c [" "%char; "009"%char; "010"%char; "011"%char; "012"%char; "013"%char].

Inductive gap : text -> Prop :=
| gap_nil : gap []
| gap_blank c w : blank c -> gap w -> gap (c :: w)
| gap_comment body w : ~ In newline body -> gap w ->
    gap (text_of "//" ++ body ++ [newline] ++ w).

(** The last gap of a source may end in a comment without its newline. *)
Definition last_gap (g : text) : Prop :=
  exists g' body, gap g' /\ ~ In newline body /\ g = g' ++ text_of "//" ++ body.

Definition begins_blank (w : text) : Prop := exists c w', w = c :: w' /\ blank c.

(** ** String literals: text after the opening quote that has a closing quote *)
Inductive str_body : text -> Prop :=
| sb_nil : str_body []
| sb_plain c w : c <> ch_dquote -> c <> ch_bslash -> str_body w -> str_body (c :: w)
| sb_esc e w : str_body w -> str_body (ch_bslash :: e :: w).

Definition closed (q : text) : Prop := exists body rest, q = body ++ ch_dquote :: rest /\ str_body body.

(** ** Where the lexer stands: the number of source characters before its
    look-ahead character ([-1] before the first token) *)
Definition consumed (l : clex) : Z :=
  match c_last l with Some _ => c_pos l - 1 | None => c_pos l end.

(** The part of a token that does not depend on where it stands. *)
Definition content (t : token) : tokkind * option text * bool * Z * Z :=
  (tk t, tk_lexeme t, tk_b t, tk_i t, tk_f t).

Definition proper (k : tokkind) : Prop := k <> TEOF /\ k <> LEXER_ERROR.

(** [pieces] cuts the text that produced the tokens [ts] into the gap before
    and the characters of each token; [line] is the line counter before. *)
Inductive cut : Z -> list (text * text) -> list token -> Prop :=
| cut_nil line : cut line [] []
| cut_cons line g x t ps ts :
    gap g \/ (tk t = TEOF /\ last_gap g) ->
    (tk t <> STRING -> tk t <> CHAR -> tk t <> LEXER_ERROR -> newlines x = 0%nat) ->
    (tk t = TEOF -> x = []) -> (proper (tk t) -> x <> []) ->
    tk_line t = line + Z.of_nat (newlines g) ->
    cut (tk_line t) ps ts ->
    cut line ((g, x) :: ps) (t :: ts).

Definition joined (ps : list (text * text)) : text := concat (map (fun p => fst p ++ snd p) ps).

(** ** Spellings *)
Inductive word :=
| WOp (s : string) (k : tokkind)
| WKey (s : string) (k : tokkind)
| WName (s : text)
| WInt (n : N)
| WHex (n : N)
| WFloat (whole frac : list nat)
| WChar (c : ascii)
| WStr (s : text).

Definition operators : list (string * tokkind) :=
  [("(", OPENPAREN); (")", CLOSEPAREN); ("{", OPENCURLY); ("}", CLOSECURLY);
   ("[", OPENSQUARE); ("]", CLOSESQUARE); ("+", PLUS); ("-", MINUS); ("*", STAR); ("/", SLASH);
   ("%", PERCENT); (">", GT); ("<", LT); ("=", EQUAL); ("!", BANG); ("&", AND); ("|", OR);
   ("<<", SHIFT_LEFT); (">>", SHIFT_RIGHT); (",", COMMA); (";", SEMI); (":", COLON); (".", DOT);
   ("...", ELLIPSIS); ("&&", LOG_AND); ("||", LOG_OR); (":=", DECLARE); ("::", DECLARECONST);
   ("+=", PLUSEQUAL); ("-=", MINUSEQUAL); ("*=", STAREQUAL); ("/=", SLASHEQUAL);
   ("%=", PERCENTEQUAL); ("|=", OREQUAL); ("&=", ANDEQUAL); ("==", EQUALS); ("!=", NOTEQUALS);
   ("<=", LTE); (">=", GTE); ("->", ARROW); ("?", QUESTION)]%string.

Definition keywords : list (string * tokkind) :=
  [("null", NULL); ("true", BOOL); ("false", BOOL); ("if", IF); ("else", ELSE); ("while", WHILE);
   ("for", FOR); ("return", RETURN); ("func", FUNC); ("foreign", FOREIGN); ("struct", STRUCT);
   ("new", NEW); ("cast", CAST); ("break", BREAK); ("continue", CONTINUE); ("use", USE);
   ("foreach", FOREACH)]%string.

Definition letter (c : ascii) : Prop :=
  In c (text_of "abcdefghijklmnopqrstuvwxyzABCDEFGHIJKLMNOPQRSTUVWXYZ").
Definition name_char (c : ascii) : Prop := letter c \/ In c (text_of "0123456789_").

Definition is_name (s : text) : Prop :=
  (exists c s', s = c :: s' /\ letter c) /\ Forall name_char s /\
  ~ In s (map (fun kw => text_of (fst kw)) keywords).

(** The spelling of one character inside quotes. *)
Definition quoted (c : ascii) : text :=
  if Ascii.eqb c "010" then text_of "\n"
  else if Ascii.eqb c "009" then text_of "\t"
  else if Ascii.eqb c "013" then text_of "\r"
  else if Ascii.eqb c "008" then text_of "\b"
  else if Ascii.eqb c ch_quote || Ascii.eqb c ch_dquote || Ascii.eqb c ch_bslash then [ch_bslash; c]
  else [c].

Definition digit_char (d : nat) : ascii := nth d (list_ascii_of_string "0123456789") "0"%char.

(** The number a row of decimal digits writes, the most significant first. *)
Definition decimal (ds : list nat) : Z := fold_left (fun a d => 10 * a + Z.of_nat d) ds 0.

Definition spell (w : word) : text :=
  match w with
  | WOp s _ => text_of s
  | WKey s _ => text_of s
  | WName s => s
  | WInt n => text_of (DecimalString.NilZero.string_of_uint (N.to_uint n))
  | WHex n => text_of "0x" ++ text_of (HexadecimalString.NilZero.string_of_uint (N.to_hex_uint n))
  | WFloat a b => map digit_char a ++ ["."%char] ++ map digit_char b
  | WChar c => [ch_quote] ++ quoted c ++ [ch_quote]
  | WStr s => [ch_dquote] ++ concat (map quoted s) ++ [ch_dquote]
  end.

Definition well_spelt (w : word) : Prop :=
  match w with
  | WOp s k => In (s, k) operators
  | WKey s k => In (s, k) keywords
  | WName s => is_name s
  | WInt n | WHex n => (n < 2^31)%N
  | WFloat a b => a <> [] /\ Forall (fun d => (d < 10)%nat) (a ++ b)
  | WChar _ | WStr _ => True
  end.

(** Token [t] is the word [w].  A float literal means the [double] nearest to
    the number it writes, rounded to [float] (the token's field is a [float]). *)
Definition reads (t : token) (w : word) : Prop :=
  match w with
  | WOp s k => tk t = k
  | WKey s k => tk t = k /\ (k = BOOL -> tk_b t = String.eqb s "true")
  | WName s => tk t = IDENT /\ tk_lexeme t = Some s
  | WInt n | WHex n => tk t = INT /\ tk_i t = Z.of_N n
  | WFloat a b => tk t = FLOAT /\
      tk_f t = f_single (f_of_ratio (decimal (a ++ b)) (10 ^ Z.of_nat (List.length b)))
  | WChar c => tk t = CHAR /\ tk_i t = char_val c
  | WStr s => tk t = STRING /\ tk_lexeme t = Some s
  end.

(** Words and the gaps after them. *)
Definition write (ws : list (word * text)) : text := concat (map (fun p => spell (fst p) ++ snd p) ws).
