(** * Token kinds: /repo/tiny/include/tokens.h:3-80 *)
From Verif Require Import Base.

Inductive tokkind : Set :=
| OPENPAREN | CLOSEPAREN | OPENCURLY | CLOSECURLY | OPENSQUARE | CLOSESQUARE
| PLUS | MINUS | STAR | SLASH | PERCENT | GT | LT | EQUAL | BANG | AND | OR
| SHIFT_LEFT | SHIFT_RIGHT | COMMA | SEMI | COLON | DOT | ELLIPSIS
| LOG_AND | LOG_OR | DECLARE | DECLARECONST
| PLUSEQUAL | MINUSEQUAL | STAREQUAL | SLASHEQUAL | PERCENTEQUAL | OREQUAL | ANDEQUAL
| EQUALS | NOTEQUALS | LTE | GTE
| NULL | BOOL | CHAR | INT | FLOAT | STRING
| IDENT
| IF | ELSE | WHILE | FOR | RETURN | FUNC | FOREIGN | STRUCT | NEW | CAST
| BREAK | CONTINUE | USE | FOREACH
| ARROW | QUESTION
| TEOF
| LEXER_ERROR.

(** Position of the enumerator in the C enum (the enum is dense from 0). *)
Definition tok_code (k : tokkind) : N :=
  match k with
  | OPENPAREN => 0 | CLOSEPAREN => 1 | OPENCURLY => 2 | CLOSECURLY => 3
  | OPENSQUARE => 4 | CLOSESQUARE => 5
  | PLUS => 6 | MINUS => 7 | STAR => 8 | SLASH => 9 | PERCENT => 10
  | GT => 11 | LT => 12 | EQUAL => 13 | BANG => 14 | AND => 15 | OR => 16
  | SHIFT_LEFT => 17 | SHIFT_RIGHT => 18 | COMMA => 19 | SEMI => 20
  | COLON => 21 | DOT => 22 | ELLIPSIS => 23
  | LOG_AND => 24 | LOG_OR => 25 | DECLARE => 26 | DECLARECONST => 27
  | PLUSEQUAL => 28 | MINUSEQUAL => 29 | STAREQUAL => 30 | SLASHEQUAL => 31
  | PERCENTEQUAL => 32 | OREQUAL => 33 | ANDEQUAL => 34
  | EQUALS => 35 | NOTEQUALS => 36 | LTE => 37 | GTE => 38
  | NULL => 39 | BOOL => 40 | CHAR => 41 | INT => 42 | FLOAT => 43 | STRING => 44
  | IDENT => 45
  | IF => 46 | ELSE => 47 | WHILE => 48 | FOR => 49 | RETURN => 50 | FUNC => 51
  | FOREIGN => 52 | STRUCT => 53 | NEW => 54 | CAST => 55
  | BREAK => 56 | CONTINUE => 57 | USE => 58 | FOREACH => 59
  | ARROW => 60 | QUESTION => 61 | TEOF => 62 | LEXER_ERROR => 63
  end%N.

Definition tok_eqb (a b : tokkind) : bool := N.eqb (tok_code a) (tok_code b).

Definition tok_decode (n : N) : tokkind :=
  nth (N.to_nat n)
    [OPENPAREN; CLOSEPAREN; OPENCURLY; CLOSECURLY; OPENSQUARE; CLOSESQUARE;
     PLUS; MINUS; STAR; SLASH; PERCENT; GT; LT; EQUAL; BANG; AND; OR;
     SHIFT_LEFT; SHIFT_RIGHT; COMMA; SEMI; COLON; DOT; ELLIPSIS;
     LOG_AND; LOG_OR; DECLARE; DECLARECONST;
     PLUSEQUAL; MINUSEQUAL; STAREQUAL; SLASHEQUAL; PERCENTEQUAL; OREQUAL; ANDEQUAL;
     EQUALS; NOTEQUALS; LTE; GTE;
     NULL; BOOL; CHAR; INT; FLOAT; STRING; IDENT;
     IF; ELSE; WHILE; FOR; RETURN; FUNC; FOREIGN; STRUCT; NEW; CAST;
     BREAK; CONTINUE; USE; FOREACH; ARROW; QUESTION; TEOF; LEXER_ERROR] TEOF.

Lemma tok_decode_code k : tok_decode (tok_code k) = k.
Proof. destruct k; reflexivity. Qed.

Lemma tok_eqb_eq a b : tok_eqb a b = true <-> a = b.
Proof.
  unfold tok_eqb. rewrite N.eqb_eq. split; [|congruence].
  intros H. rewrite <- (tok_decode_code a), <- (tok_decode_code b). congruence.
Qed.

Lemma tok_eqb_refl a : tok_eqb a a = true.
Proof. apply tok_eqb_eq; reflexivity. Qed.

Lemma tok_eqb_neq a b : tok_eqb a b = false <-> a <> b.
Proof.
  rewrite <- tok_eqb_eq. destruct (tok_eqb a b); split; congruence.
Qed.
