(** * The parser: /repo/tiny/src/tiny.c:1457-1461, 1607-2458

    The lexer does not depend on the parser, so the parser works on the token
    stream of Lexer.v: [ps_toks] are the tokens not fetched yet, [ps_end] what
    the lexer does after them, [ps_tok] the last token fetched ([lastTok] with
    the lexer's fields).  All functions take a recursion bound [n] and answer
    [CFuel] when it runs out; ParserProofs.v shows a bound that never does.
    Arena allocation (Arena.v) and the message texts are left out. *)
From Verif Require Import Base Token Lexer Values Syntax Symbols.
Local Open Scope nat_scope.
Local Open Scope cm_scope.

Record pst := mkPst { ps_tbl : tbl; ps_toks : list token; ps_end : stream_end; ps_tok : token }.

Definition pm (A : Type) := pst -> cres pst A.

(** An operation of the symbol table *)
Definition on_tbl {A} (m : tbl -> cres tbl A) : pm A :=
  fun s => match m (ps_tbl s) with
           | COk a t => COk a (mkPst t (ps_toks s) (ps_end s) (ps_tok s))
           | CFail t => CFail (mkPst t (ps_toks s) (ps_end s) (ps_tok s))
           | CAbort => CAbort | CUB => CUB | CHang => CHang | CFuel => CFuel
           end.
Definition mod_tbl (f : tbl -> tbl) : pm unit := on_tbl (fun t => COk tt (f t)).
Definition the_tbl : pm tbl := on_tbl cget.

(** tiny.c:1607 [GetNextToken] *)
Definition next_token : pm unit :=
  fun s => match ps_toks s with
           | t :: ts => COk tt (mkPst (ps_tbl s) ts (ps_end s) t)
           | [] => match ps_end s with
                   | SRepeat t => COk tt (mkPst (ps_tbl s) [] (ps_end s) t)
                   | SHang => CHang
                   | SFuel => CFuel
                   end
           end.

Definition last_tok : pm tokkind := fun s => COk (tk (ps_tok s)) s.
Definition the_line : pm Z := fun s => COk (tk_line (ps_tok s)) s.
Definition the_int : pm Z := fun s => COk (tk_i (ps_tok s)) s.

(** [state->l.lexeme]; using a NULL lexeme as a string is undefined *)
Definition lexeme : pm text :=
  fun s => match tk_lexeme (ps_tok s) with Some x => COk x s | None => CUB end.

(** tiny.c:1491-1500 [ExpectTokenSL] *)
Definition expect (k : tokkind) : pm unit :=
  t <- last_tok ;; if tok_eqb t k then cret tt else cfail.

(** tiny.c:1457-1462 [GetExpectTokenSL] *)
Definition get_expect (k : tokkind) : pm unit := next_token ;;; expect k.

(** tiny.c:1609-1632 [ParseTypeL] *)
Definition parse_type : pm tag :=
  expect IDENT ;;;
  name <- lexeme ;;
  g <- on_tbl (tag_from_name name) ;;
  next_token ;;;
  t <- last_tok ;;
  if tok_eqb t QUESTION then
    (if tag_eq_dec g GVoid then cfail
     else g' <- on_tbl (get_nullable g) ;; next_token ;;; cret g')
  else cret g.

(** tiny.c:2131-2165 [GetTokenPrec]; [None] is -1 *)
Definition prec_of (k : tokkind) : option nat :=
  match k with
  | STAR | SLASH | PERCENT | AND | OR => Some 5
  | SHIFT_LEFT | SHIFT_RIGHT | PLUS | MINUS => Some 4
  | LTE | GTE | EQUALS | NOTEQUALS | LT | GT => Some 3
  | LOG_AND | LOG_OR => Some 2
  | _ => None
  end.

(** The token kinds of the binary operators *)
Definition bop_of (k : tokkind) : option bop :=
  match k with
  | STAR => Some BMul | SLASH => Some BDiv | PERCENT => Some BMod | AND => Some BAnd | OR => Some BOr
  | SHIFT_LEFT => Some BShl | SHIFT_RIGHT => Some BShr | PLUS => Some BAdd | MINUS => Some BSub
  | LTE => Some BLte | GTE => Some BGte | EQUALS => Some BEq | NOTEQUALS => Some BNe
  | LT => Some BLt | GT => Some BGt | LOG_AND => Some BLand | LOG_OR => Some BLor
  | _ => None
  end.

Definition prec_lt (a b : option nat) : bool :=
  match a, b with
  | None, Some _ => true
  | Some x, Some y => x <? y
  | _, None => false
  end.

(** tiny.c:1819-1845 and 1847-2195: expressions *)
Fixpoint parse_expr (n : nat) : pm expr :=                 (* ParseExpr *)
  match n with
  | O => fun _ => CFuel
  | S n => f <- parse_factor n ;; parse_rhs n 0 f
  end
with parse_factor (n : nat) : pm expr :=                   (* ParseFactor *)
  match n with
  | O => fun _ => CFuel
  | S n => e <- parse_value n ;; parse_suffix n e
  end
with parse_rhs (n : nat) (p : nat) (lhs : expr) : pm expr :=   (* ParseBinRhs *)
  match n with
  | O => fun _ => CFuel
  | S n =>
      t <- last_tok ;;
      match prec_of t, bop_of t with
      | Some q, Some o =>
          if q <? p then cret lhs
          else
            next_token ;;;
            r <- parse_factor n ;;
            t' <- last_tok ;;
            r' <- (if prec_lt (Some q) (prec_of t') then parse_rhs n (S q) r else cret r) ;;
            parse_rhs n p (EBin o lhs r')
      | _, _ => cret lhs
      end
  end
with parse_suffix (n : nat) (e : expr) : pm expr :=        (* ParseSuffix *)
  match n with
  | O => fun _ => CFuel
  | S n =>
      t <- last_tok ;;
      match t with
      | OPENSQUARE =>
          next_token ;;;
          i <- parse_expr n ;;
          expect CLOSESQUARE ;;;
          next_token ;;;
          parse_suffix n (EIndex e i)
      | ARROW =>
          get_expect IDENT ;;;
          f <- lexeme ;;
          get_expect OPENPAREN ;;;
          args <- parse_call n ;;
          parse_suffix n (ECall f (e :: args))
      | DOT =>
          get_expect IDENT ;;;
          f <- lexeme ;;
          next_token ;;;
          parse_suffix n (EDot e f)
      | _ => cret e
      end
  end
with parse_value (n : nat) : pm expr :=                    (* ParseValue *)
  match n with
  | O => fun _ => CFuel
  | S n =>
      t <- last_tok ;;
      match t with
      | NULL => next_token ;;; cret ENull
      | BOOL => (fun s => (next_token ;;; cret (EBool (tk_b (ps_tok s)))) s)
      | IDENT =>
          name <- lexeme ;;
          next_token ;;;
          t' <- last_tok ;;
          if tok_eqb t' OPENPAREN then
            args <- parse_call n ;; cret (ECall name args)
          else
            r <- on_tbl (reference_variable name) ;; cret (EId name r)
      | MINUS => next_token ;;; e <- parse_factor n ;; cret (EUn UMinus e)
      | BANG => next_token ;;; e <- parse_factor n ;; cret (EUn UNot e)
      | CHAR => z <- the_int ;; next_token ;;; cret (EChar z)
      | INT => z <- the_int ;; next_token ;;; cret (EInt z)
      | FLOAT => (fun s => (next_token ;;; cret (EFloat (tk_f (ps_tok s)))) s)
      | STRING =>
          x <- lexeme ;;
          i <- on_tbl (intern x) ;;
          next_token ;;;
          cret (EStr i)
      | OPENPAREN =>
          next_token ;;;
          e <- parse_expr n ;;
          expect CLOSEPAREN ;;;
          next_token ;;;
          cret (EParen e)
      | NEW =>
          next_token ;;;
          name <- lexeme ;;
          id <- on_tbl (declare_struct name true) ;;
          get_expect OPENCURLY ;;;
          next_token ;;;
          ' (names, args) <- parse_new n ;;
          next_token ;;;
          cret (ENew id names args)
      | CAST =>
          get_expect OPENPAREN ;;;
          next_token ;;;
          e <- parse_expr n ;;
          expect COMMA ;;;
          next_token ;;;
          g <- parse_type ;;
          expect CLOSEPAREN ;;;
          next_token ;;;
          parse_dots n (ECast e g)
      | IF =>
          next_token ;;;
          c <- parse_expr n ;;
          a <- parse_expr n ;;
          expect ELSE ;;;
          next_token ;;;
          b <- parse_expr n ;;
          cret (ETern c a b)
      | _ => cfail
      end
  end
with parse_dots (n : nat) (e : expr) : pm expr :=          (* tiny.c:2003-2014 *)
  match n with
  | O => fun _ => CFuel
  | S n =>
      t <- last_tok ;;
      if tok_eqb t DOT then
        get_expect IDENT ;;;
        f <- lexeme ;;
        next_token ;;;
        parse_dots n (EDot e f)
      else cret e
  end
with parse_call (n : nat) : pm (list expr) :=              (* ParseCall *)
  match n with
  | O => fun _ => CFuel
  | S n =>
      t <- last_tok ;;
      if tok_eqb t OPENPAREN then
        next_token ;;;
        args <- parse_args n ;;
        next_token ;;;
        cret args
      else cabort
  end
with parse_args (n : nat) : pm (list expr) :=              (* tiny.c:1829-1837 *)
  match n with
  | O => fun _ => CFuel
  | S n =>
      t <- last_tok ;;
      if tok_eqb t CLOSEPAREN then cret []
      else
        e <- parse_expr n ;;
        t' <- last_tok ;;
        (if tok_eqb t' COMMA then next_token
         else if tok_eqb t' CLOSEPAREN then cret tt else cfail) ;;;
        es <- parse_args n ;;
        cret (e :: es)
  end
with parse_new (n : nat) : pm (list text * list expr) :=   (* tiny.c:1955-1982 *)
  match n with
  | O => fun _ => CFuel
  | S n =>
      t <- last_tok ;;
      if tok_eqb t CLOSECURLY then cret ([], [])
      else
        nm <- (if tok_eqb t DOT then
                 get_expect IDENT ;;;
                 x <- lexeme ;;
                 get_expect EQUAL ;;;
                 next_token ;;;
                 cret [x]
               else cret []) ;;
        e <- parse_expr n ;;
        t' <- last_tok ;;
        (if tok_eqb t' CLOSECURLY then cret tt
         else if tok_eqb t' COMMA then next_token else cfail) ;;;
        ' (ns, es) <- parse_new n ;;
        cret (nm ++ ns, e :: es)
  end.

(** tiny.c:1704-1727: the parameter list *)
Fixpoint parse_params (n : nat) : pm (list (text * tag)) :=
  match n with
  | O => fun _ => CFuel
  | S n =>
      t <- last_tok ;;
      if tok_eqb t CLOSEPAREN then cret []
      else
        expect IDENT ;;;
        name <- lexeme ;;
        next_token ;;;
        expect COLON ;;;
        next_token ;;;
        g <- parse_type ;;
        t' <- last_tok ;;
        (if tok_eqb t' CLOSEPAREN then cret tt
         else if tok_eqb t' COMMA then next_token else cfail) ;;;
        ps <- parse_params n ;;
        cret ((name, g) :: ps)
  end.

(** tiny.c:1729-1732 *)
Fixpoint declare_params (nargs : nat) (ps : list (text * tag)) : pm unit :=
  match ps with
  | [] => cret tt
  | (name, g) :: ps' => on_tbl (declare_argument nargs name g) ;;; declare_params nargs ps'
  end.

Definition set_ret (f : nat) (g : tag) : tbl -> cres tbl unit :=
  fun t => match sym_at t f with
           | Some (mkSym _ _ (SyFunc i args locals _)) =>
               COk tt (put_body t f (SyFunc i args locals (Some g)))
           | _ => CUB
           end.

(** tiny.c:1777-1809: the fields of a struct; [id] is its symbol *)
Fixpoint parse_fields (n : nat) (id : nat) : pm unit :=
  match n with
  | O => fun _ => CFuel
  | S n =>
      t <- last_tok ;;
      if tok_eqb t CLOSECURLY then cret tt
      else
        expect IDENT ;;;
        name <- lexeme ;;
        tb <- the_tbl ;;
        match sym_at tb id with
        | Some (mkSym _ _ (SyStruct _ fs)) =>
            if 255 <=? length fs then cfail
            else match field_index fs name with
                 | Some _ => cfail
                 | None =>
                     get_expect COLON ;;;
                     next_token ;;;
                     g <- parse_type ;;
                     on_tbl (fun t0 =>
                       match sym_at t0 id with
                       | Some (mkSym _ _ (SyStruct d fs0)) =>
                           COk tt (put_body t0 id (SyStruct d (fs0 ++ [mkField name g])))
                       | _ => CUB
                       end) ;;;
                     parse_fields n id
                 end
        | _ => cub
        end
  end.

(** tiny.c:1760-1817 [ParseStruct] *)
Definition parse_struct (n : nat) : pm unit :=
  tb <- the_tbl ;;
  match tb_func tb with
  | Some _ => cfail
  | None =>
      get_expect IDENT ;;;
      name <- lexeme ;;
      id <- on_tbl (declare_struct name true) ;;
      tb1 <- the_tbl ;;
      match sym_at tb1 id with
      | Some (mkSym _ _ (SyStruct true _)) => cfail
      | Some (mkSym _ _ (SyStruct false fs)) =>
          mod_tbl (fun t => put_body t id (SyStruct true fs)) ;;;
          get_expect OPENCURLY ;;;
          next_token ;;;
          parse_fields n id ;;;
          next_token ;;;
          tb2 <- the_tbl ;;
          match sym_at tb2 id with
          | Some (mkSym _ _ (SyStruct _ [])) => cfail
          | Some _ => cret tt
          | None => cub
          end
      | _ => cub
      end
  end.

(** tiny.c:2306-2330: the arguments of [use] *)
Fixpoint parse_use_args (n : nat) : pm (list text) :=
  match n with
  | O => fun _ => CFuel
  | S n =>
      t <- last_tok ;;
      if tok_eqb t CLOSEPAREN then cret []
      else
        expect STRING ;;;
        x <- lexeme ;;
        next_token ;;;
        t' <- last_tok ;;
        (if tok_eqb t' COMMA then next_token else cret tt) ;;;
        xs <- parse_use_args n ;;
        cret (x :: xs)
  end.

(** tiny.c:2279-2345: [use] *)
Definition parse_use (n : nat) (line : Z) : pm stmt :=
  get_expect IDENT ;;;
  m <- lexeme ;;
  get_expect OPENPAREN ;;;
  next_token ;;;
  args <- parse_use_args n ;;
  next_token ;;;
  t <- last_tok ;;
  if tok_eqb t IDENT then
    x <- lexeme ;;
    if text_eqb x (text_of "as") then
      get_expect IDENT ;;;
      y <- lexeme ;;
      next_token ;;;
      cret (SUse line m args (Some y))
    else cret (SUse line m args None)
  else cret (SUse line m args None).

(** tiny.c:2399-2422: the constant a declaration [x :: e] binds *)
Definition const_of (e : expr) : option constv :=
  match e with
  | EBool b => Some (KBool b)
  | EChar z | EInt z => Some (KInt z)
  | EFloat b => Some (KFloat b)
  | EStr i => Some (KStr i)
  | _ => None
  end.

(** tiny.c:2347-2433: a call, a declaration or an assignment *)
Definition parse_simple (n : nat) : pm stmt :=
  line0 <- the_line ;;
  lhs <- parse_factor n ;;
  match lhs with
  | ECall f args => cret (SCall line0 f args)
  | _ =>
      op <- last_tok ;;
      line <- the_line ;;
      ' (lhs', op') <-
        (if tok_eqb op DECLARE || tok_eqb op COLON then
           match lhs with
           | EId name _ =>
               tb <- the_tbl ;;
               r <- on_tbl (match tb_func tb with
                            | Some _ => declare_local name
                            | None => declare_global name end) ;;
               if tok_eqb op COLON then
                 next_token ;;;
                 g <- parse_type ;;
                 on_tbl (set_var_tag r g) ;;;
                 expect EQUAL ;;;
                 cret (EId name (Some r), EQUAL)
               else cret (EId name (Some r), op)
           | _ => cfail
           end
         else cret (lhs, op)) ;;
      match prec_of op' with
      | Some _ => cfail
      | None =>
          next_token ;;;
          rhs <- parse_expr n ;;
          (if tok_eqb op' DECLARECONST then
             match lhs' with
             | EId name _ =>
                 match const_of rhs with
                 | Some c => on_tbl (declare_const name c)
                 | None => cfail
                 end
             | _ => cfail
             end
           else cret tt) ;;;
          cret (SAsg line op' lhs' rhs)
      end
  end.

(** tiny.c:2197-2437 [ParseStatement], with 1637-1758 [ParseIf], [ParseBlock],
    [ParseFunc] *)
Fixpoint parse_stmt (n : nat) : pm stmt :=
  match n with
  | O => fun _ => CFuel
  | S n =>
      t <- last_tok ;;
      match t with
      | OPENCURLY =>
          line <- the_line ;;
          next_token ;;;
          mod_tbl open_scope ;;;
          ss <- parse_block n ;;
          next_token ;;;
          on_tbl close_scope ;;;
          cret (SBlock line ss)
      | FUNC =>
          tb <- the_tbl ;;
          match tb_func tb with
          | Some _ => cfail
          | None =>
              line <- the_line ;;
              get_expect IDENT ;;;
              name <- lexeme ;;
              f <- on_tbl (declare_function name) ;;
              mod_tbl (fun t => set_func t (Some f)) ;;;
              get_expect OPENPAREN ;;;
              next_token ;;;
              ps <- parse_params n ;;
              declare_params (length ps) ps ;;;
              next_token ;;;
              t' <- last_tok ;;
              (if tok_eqb t' COLON then
                 next_token ;;; g <- parse_type ;; on_tbl (set_ret f g)
               else on_tbl (set_ret f GVoid)) ;;;
              mod_tbl open_scope ;;;
              body <- parse_stmt n ;;
              on_tbl close_scope ;;;
              mod_tbl (fun t => set_func t None) ;;;
              cret (SProc line f body)
          end
      | IF =>
          line <- the_line ;;
          next_token ;;;
          c <- parse_expr n ;;
          a <- parse_stmt n ;;
          t' <- last_tok ;;
          if tok_eqb t' ELSE then
            next_token ;;; b <- parse_stmt n ;; cret (SIf line c a (Some b))
          else cret (SIf line c a None)
      | WHILE =>
          next_token ;;;
          line <- the_line ;;
          c <- parse_expr n ;;
          mod_tbl open_scope ;;;
          body <- parse_stmt n ;;
          on_tbl close_scope ;;;
          cret (SWhile line c body)
      | FOR =>
          next_token ;;;
          line <- the_line ;;
          mod_tbl open_scope ;;;
          init <- parse_stmt n ;;
          expect SEMI ;;;
          next_token ;;;
          c <- parse_expr n ;;
          expect SEMI ;;;
          next_token ;;;
          step <- parse_stmt n ;;
          body <- parse_stmt n ;;
          on_tbl close_scope ;;;
          cret (SFor line init c step body)
      | RETURN =>
          tb <- the_tbl ;;
          match tb_func tb with
          | None => cfail
          | Some f =>
              line <- the_line ;;
              next_token ;;;
              t' <- last_tok ;;
              if tok_eqb t' SEMI then next_token ;;; cret (SReturn line None)
              else
                tb1 <- the_tbl ;;
                match sym_at tb1 f with
                | Some (mkSym _ _ (SyFunc _ _ _ (Some g))) =>
                    if tag_eq_dec g GVoid then cfail
                    else e <- parse_expr n ;; cret (SReturn line (Some e))
                | _ => cub
                end
          end
      | BREAK => next_token ;;; line <- the_line ;; cret (SBreak line)
      | CONTINUE => line <- the_line ;; next_token ;;; cret (SContinue line)
      | USE =>
          tb <- the_tbl ;;
          match tb_func tb with
          | Some _ => cfail
          | None => if tb_scope tb =? 0 then line <- the_line ;; parse_use n line else cfail
          end
      | _ => parse_simple n
      end
  end
with parse_block (n : nat) : pm (list stmt) :=             (* tiny.c:1668-1673 *)
  match n with
  | O => fun _ => CFuel
  | S n =>
      t <- last_tok ;;
      if tok_eqb t CLOSECURLY then cret []
      else s <- parse_stmt n ;; ss <- parse_block n ;; cret (s :: ss)
  end.

(** tiny.c:2448-2455, the loop of [ParseProgram] *)
Fixpoint parse_top (n : nat) : pm (list stmt) :=
  match n with
  | O => fun _ => CFuel
  | S n =>
      t <- last_tok ;;
      match t with
      | TEOF => cret []
      | STRUCT => parse_struct n ;;; parse_top n
      | _ => s <- parse_stmt n ;; ss <- parse_top n ;; cret (s :: ss)
      end
  end.

(** tiny.c:2439-2458 [ParseProgram] *)
Definition parse_program (n : nat) : pm (list stmt) := next_token ;;; parse_top n.

(** A recursion bound that is always enough (theorem [parser_total]). *)
Definition parse_fuel (toks : list token) : nat := 6 * length toks + 20.

(** The state in which the parser meets a source *)
Definition start_parse (t : tbl) (src : text) : pst :=
  let '(ts, e) := lex_all src in mkPst t ts e (mkTok TEOF 0 1 None false 0 0).

Example parse_ex :
  match parse_program 100 (start_parse init_tbl (text_of "func f(a: int): int { return a * 2 + 1 } x := f(3)")) with
  | COk ss _ => ss
  | _ => []
  end =
  [SProc 1 0 (SBlock 1 [SReturn 1 (Some (EBin BAdd (EBin BMul (EId (text_of "a") (Some (RArg 0 0))) (EInt 2)) (EInt 1)))]);
   SAsg 1 DECLARE (EId (text_of "x") (Some (RGlobal 1))) (ECall (text_of "f") [EInt 3])].
Proof. vm_compute. reflexivity. Qed.
