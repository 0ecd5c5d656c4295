(** * Type resolution: /repo/tiny/src/tiny.c:2460-3035

    [ResolveTypes] fills in [exp->tag] and the functions of index expressions;
    the model returns the annotated tree.  It is a function of the tree and the
    symbol table; [:=] and function bodies change the table (the type of the
    declared variable, [currFunc]). *)
From Verif Require Import Base Token Values Syntax Symbols.
Local Open Scope nat_scope.
Local Open Scope cm_scope.

(** [tag->type]; [None]: not a live type symbol *)
Inductive tkind := KVoid | KBoolT | KIntT | KFloatT | KStrT | KAny | KStruct | KForeign | KNullable (inner : tag).

Definition kind_of (t : tbl) (g : tag) : option tkind :=
  match g with
  | GVoid => Some KVoid | GBool => Some KBoolT | GInt => Some KIntT
  | GFloat => Some KFloatT | GStr => Some KStrT | GAny => Some KAny
  | GSym id =>
      match sym_at t id with
      | Some (mkSym _ _ (SyStruct _ _)) => Some KStruct
      | Some (mkSym _ _ SyForeignTag) => Some KForeign
      | Some (mkSym _ _ (SyNullable g')) => Some (KNullable g')
      | _ => None
      end
  end.

Definition same_kind (a b : tkind) : bool :=
  match a, b with
  | KVoid, KVoid | KBoolT, KBoolT | KIntT, KIntT | KFloatT, KFloatT | KStrT, KStrT | KAny, KAny
  | KStruct, KStruct | KForeign, KForeign | KNullable _, KNullable _ => true
  | _, _ => false
  end.

(** tiny.c:2465-2490 [IsTagAssignableTo]; [n] bounds the nesting of nullables,
    [None] is a read of a symbol that is gone *)
Fixpoint assignable (n : nat) (t : tbl) (src dest : tag) : option bool :=
  match n with
  | O => None
  | S n' =>
      match kind_of t src with
      | None => None
      | Some KVoid => Some false
      | Some ks =>
          match kind_of t dest with
          | None => None
          | Some KAny => Some true
          | Some kd =>
              match ks with
              | KAny => Some false
              | _ =>
                  match kd with
                  | KNullable inner => assignable n' t src inner
                  | _ =>
                      if same_kind ks kd then
                        match tag_name t src, tag_name t dest with
                        | Some x, Some y => Some (text_eqb x y)
                        | _, _ => None
                        end
                      else Some false
                  end
              end
          end
      end
  end.

(** Reading [tag->type] *)
Definition kindm (g : tag) : tbl -> cres tbl tkind :=
  fun t => match kind_of t g with Some k => COk k t | None => CUB end.

(** "if (!IsTagAssignableTo(...)) ReportErrorE(...)" *)
Definition check_assignable (src dest : tag) : tbl -> cres tbl unit :=
  fun t => match assignable (2 + length (tb_syms t)) t src dest with
           | Some true => COk tt t
           | Some false => CFail t
           | None => CUB
           end.

Definition numeric (k : tkind) : option bool :=      (* Some true: int, Some false: float *)
  match k with KIntT => Some true | KFloatT => Some false | _ => None end.

(** tiny.c:2588-2683 on the two resolved operand types *)
Definition bin_tag (o : bop) (a b : tkind) : option tag :=
  match o with
  | BAdd | BSub | BMul | BDiv =>
      match numeric a, numeric b with
      | Some x, Some y => Some (if x && y then GInt else GFloat)
      | _, _ => None
      end
  | BAnd | BOr | BMod | BShl | BShr =>
      match a, b with KIntT, KIntT => Some GInt | _, _ => None end
  | BLand | BLor =>
      match a, b with KBoolT, KBoolT => Some GBool | _, _ => None end
  | BGt | BLt | BLte | BGte =>
      match numeric a, numeric b with Some _, Some _ => Some GBool | _, _ => None end
  | BEq | BNe =>
      match a, b with KVoid, _ | _, KVoid => None | _, _ => Some GBool end
  end.

(** tiny.c:2737-2758 *)
Definition un_tag (o : uop) (a : tkind) : option tag :=
  match o, a with
  | UMinus, KIntT => Some GInt
  | UMinus, KFloatT => Some GFloat
  | UNot, KBoolT => Some GBool
  | _, _ => None
  end.

Definition or_fail {S A} (o : option A) : S -> cres S A :=
  fun s => match o with Some a => COk a s | None => CFail s end.
Definition or_ub {S A} (o : option A) : S -> cres S A :=
  fun s => match o with Some a => COk a s | None => CUB end.

(** [exp->id.sym->var.tag] or [constant.tag]; a variable whose declaration has
    not been resolved yet has an uninitialised tag *)
Definition ref_tag (t : tbl) (r : vref) : option tag :=
  match r with
  | RGlobal id => match sym_at t id with
                  | Some (mkSym _ _ (SyGlobal _ _ g)) => g
                  | _ => None end
  | RConst id => match sym_at t id with
                 | Some (mkSym _ _ (SyConst c)) =>
                     Some match c with KBool _ => GBool | KInt _ => GInt | KFloat _ => GFloat | KStr _ => GStr end
                 | _ => None end
  | _ => match var_of t r with Some v => lv_tag v | None => None end
  end.

(** The parameter types of a function symbol, [None] = any number of further
    arguments of any type *)
Definition sig_of (b : symbody) : option (list (option tag) * bool * option tag) :=
  match b with
  | SyFunc _ args _ ret => Some (map lv_tag args, false, ret)
  | SyForeign _ args va ret _ => Some (map Some args, va, Some ret)
  | _ => None
  end.

(** snprintf into char[256] *)
Definition index_name (tyname suffix : text) : text := firstn 255 (tyname ++ suffix).

Section Args.
Variable resolve : expr -> tbl -> cres tbl texpr.
(** tiny.c:2550-2580: the arguments of a call against the parameters left *)
Fixpoint resolve_args (params : list (option tag)) (va : bool) (args : list expr)
  : tbl -> cres tbl (list texpr) :=
  match args with
  | [] => cret []
  | a :: args' =>
      e <- resolve a ;;
      match params with
      | [] => if va then es <- resolve_args [] va args' ;; cret (e :: es) else cfail
      | p :: params' =>
          g <- or_ub p ;;
          check_assignable (tag_of e) g ;;;
          es <- resolve_args params' va args' ;;
          cret (e :: es)
      end
  end.

(** tiny.c:2854-2930: the initialisers of a structure; [named] = designated *)
Fixpoint resolve_inits (id : nat) (named : bool) (names : list text) (i : nat) (args : list expr)
  : tbl -> cres tbl (list texpr) :=
  match args with
  | [] => cret []
  | a :: args' =>
      e <- resolve a ;;
      t <- cget ;;
      match sym_at t id with
      | Some (mkSym _ _ (SyStruct _ fs)) =>
          if named && match names with [] => true | _ => false end then cfail
          else if length fs <=? i then cfail
          else
            (if named then
               match names with
               | nm :: _ => match field_index fs nm with
                            | Some (_, g) => check_assignable (tag_of e) g
                            | None => cfail
                            end
               | [] => cfail
               end
             else match nth_error fs i with
                  | Some f => check_assignable (tag_of e) (fd_tag f)
                  | None => cub
                  end) ;;;
            es <- resolve_inits id named (tl names) (S i) args' ;;
            cret (e :: es)
      | _ => cub
      end
  end.
End Args.

(** tiny.c:2492-3035 [ResolveTypes], expressions *)
Fixpoint resolve (e : expr) : tbl -> cres tbl texpr :=
  match e with
  | ENull => cret TNull
  | EBool b => cret (TBool b)
  | EChar z => cret (TChar z)
  | EInt z => cret (TInt z)
  | EFloat b => cret (TFloat b)
  | EStr i => cret (TStr i)
  | EId _ None => cfail
  | EId _ (Some r) => t <- cget ;; g <- or_ub (ref_tag t r) ;; cret (TId r g)
  | ECall f args =>
      t <- cget ;;
      match reference_function t f with
      | None => cfail
      | Some s =>
          ' (params, va, ret) <- or_ub (sig_of (sy_body s)) ;;
          es <- resolve_args resolve params va args ;;
          g <- or_ub ret ;;
          cret (TCall f es g)
      end
  | EParen e => e' <- resolve e ;; cret (TParen e')
  | EBin o l r =>
      l' <- resolve l ;;
      r' <- resolve r ;;
      kl <- kindm (tag_of l') ;;
      kr <- kindm (tag_of r') ;;
      g <- or_fail (bin_tag o kl kr) ;;
      cret (TBin o l' r' g)
  | EUn o e =>
      e' <- resolve e ;;
      k <- kindm (tag_of e') ;;
      g <- or_fail (un_tag o k) ;;
      cret (TUn o e' g)
  | EDot e f =>
      e' <- resolve e ;;
      k <- kindm (tag_of e') ;;
      match k, tag_of e' with
      | KStruct, GSym id =>
          t <- cget ;;
          match sym_at t id with
          | Some (mkSym _ _ (SyStruct _ fs)) =>
              ' (_, g) <- or_fail (field_index fs f) ;; cret (TDot e' f g)
          | _ => cub
          end
      | _, _ => cfail
      end
  | ENew id names args =>
      t <- cget ;;
      match sym_at t id with
      | Some (mkSym _ _ (SyStruct true _)) =>
          es <- resolve_inits resolve id (match names with [] => false | _ => true end) names 0 args ;;
          cret (TNew id names es)
      | Some (mkSym _ _ (SyStruct false _)) => cabort
      | _ => cub
      end
  | ECast e g =>
      e' <- resolve e ;;
      k <- kindm (tag_of e') ;;
      kg <- kindm g ;;
      if same_kind k KAny || same_kind kg KAny then cret (TCast e' g) else cfail
  | ETern c a b =>
      c' <- resolve c ;;
      k <- kindm (tag_of c') ;;
      if same_kind k KBoolT then
        a' <- resolve a ;;
        b' <- resolve b ;;
        if tag_eq_dec (tag_of a') (tag_of b') then cret (TTern c' a' b' (tag_of a')) else cfail
      else cfail
  | EIndex a i =>
      a' <- resolve a ;;
      i' <- resolve i ;;
      t <- cget ;;
      nm <- or_ub (tag_name t (tag_of a')) ;;
      match reference_function t (index_name nm (text_of "_get_index")) with
      | None => cfail
      | Some gf =>
          ' (_, _, ret) <- or_ub (sig_of (sy_body gf)) ;;
          g <- or_ub ret ;;
          cret (TIndex a' i' (sy_id gf)
                  (option_map sy_id (reference_function t (index_name nm (text_of "_set_index")))) g)
      end
  end.

Definition is_assign (op : tokkind) : bool :=
  match op with
  | PLUSEQUAL | MINUSEQUAL | STAREQUAL | SLASHEQUAL | PERCENTEQUAL | OREQUAL | ANDEQUAL | EQUAL => true
  | _ => false
  end.

(** [currFunc->func.returnTag] *)
Definition ret_tag : tbl -> cres tbl tag :=
  fun t => match tb_func t with
           | None => CAbort
           | Some f => match sym_at t f with
                       | Some (mkSym _ _ (SyFunc _ _ _ (Some g))) => COk g t
                       | _ => CUB
                       end
           end.

Definition check_bool (e : texpr) : tbl -> cres tbl unit :=
  k <- kindm (tag_of e) ;; if same_kind k KBoolT then cret tt else cfail.

(** tiny.c:2492-3035 [ResolveTypes], statements *)
Fixpoint resolve_stmt (s : stmt) : tbl -> cres tbl tstmt :=
  match s with
  | SBreak n => cret (TSBreak n)
  | SContinue n => cret (TSContinue n)
  | SUse n _ _ _ => cret (TSUse n)
  | SCall n f args =>
      e <- resolve (ECall f args) ;;
      match e with TCall f' es _ => cret (TSCall n f' es) | _ => cub end
  | SAsg n op l r =>
      if tok_eqb op DECLARE then
        match l with
        | EId _ (Some v) =>
            r' <- resolve r ;;
            k <- kindm (tag_of r') ;;
            (if same_kind k KVoid then cfail else cret tt) ;;;
            set_var_tag v (tag_of r') ;;;
            cret (TSDecl n v r')
        | _ => cabort
        end
      else if is_assign op then
        l' <- resolve l ;;
        r' <- resolve r ;;
        check_assignable (tag_of r') (tag_of l') ;;;
        cret (TSAsg n op l' r')
      else
        resolve r ;;;
        cret (if tok_eqb op DECLARECONST then TSConst n else TSBad n)
  | SBlock n ss =>
      ts <- (fix go (ss : list stmt) : tbl -> cres tbl (list tstmt) :=
               match ss with
               | [] => cret []
               | s :: ss' => t <- resolve_stmt s ;; ts <- go ss' ;; cret (t :: ts)
               end) ss ;;
      cret (TSBlock n ts)
  | SProc n f body =>
      t <- cget ;;
      (fun t0 => COk tt (set_func t0 (Some f))) ;;;
      b <- resolve_stmt body ;;
      (fun t0 => COk tt (set_func t0 (tb_func t))) ;;;
      cret (TSProc n f b)
  | SIf n c a b =>
      c' <- resolve c ;;
      check_bool c' ;;;
      a' <- resolve_stmt a ;;
      b' <- match b with
            | Some b0 => x <- resolve_stmt b0 ;; cret (Some x)
            | None => cret None
            end ;;
      cret (TSIf n c' a' b')
  | SReturn n oe =>
      g <- ret_tag ;;
      match oe with
      | Some e =>
          e' <- resolve e ;;
          check_assignable (tag_of e') g ;;;
          cret (TSReturn n (Some e'))
      | None =>
          k <- kindm g ;;
          if same_kind k KVoid then cret (TSReturn n None) else cfail
      end
  | SWhile n c body =>
      c' <- resolve c ;;
      check_bool c' ;;;
      b <- resolve_stmt body ;;
      cret (TSWhile n c' b)
  | SFor n i c st body =>
      i' <- resolve_stmt i ;;
      c' <- resolve c ;;
      check_bool c' ;;;
      st' <- resolve_stmt st ;;
      b <- resolve_stmt body ;;
      cret (TSFor n i' c' st' b)
  end.

(** tiny.c:3935-3937 *)
Fixpoint resolve_all (ss : list stmt) : tbl -> cres tbl (list tstmt) :=
  match ss with
  | [] => cret []
  | s :: ss' => t <- resolve_stmt s ;; ts <- resolve_all ss' ;; cret (t :: ts)
  end.
