(** * Abstract syntax: /repo/tiny/include/expr.h

    One C struct serves expressions and statements; the parser only puts
    expressions where an expression is parsed, so the model keeps two types.
    Positions of expression nodes (used only to format error messages, see
    ErrFmt.v) are left out; statements keep the line number that goes into the
    table of lines (FileLine.v). *)
From Verif Require Import Base Token.
Local Open Scope nat_scope.

(** A type ([Tiny_Symbol] of a TAG kind): the six static symbols of tiny.c:703-719,
    or a symbol of the table, named by its identity. *)
Inductive tag := GVoid | GBool | GInt | GFloat | GStr | GAny | GSym (id : nat).

Definition tag_eq_dec (a b : tag) : {a = b} + {a <> b}.
Proof. decide equality. apply Nat.eq_dec. Defined.

(** Where [exp->id.sym] points: a global variable or constant of the table, or
    local / argument number [i] of the function symbol [f]. *)
Inductive vref := RGlobal (id : nat) | RConst (id : nat) | RLocal (f i : nat) | RArg (f i : nat).

(** Operators that [ParseBinRhs] accepts (those with a precedence, tiny.c:2131-2165) *)
Inductive bop :=
| BMul | BDiv | BMod | BAnd | BOr | BShl | BShr | BAdd | BSub
| BLte | BGte | BEq | BNe | BLt | BGt | BLand | BLor.

Inductive uop := UMinus | UNot.

(** expr.h:8-35 and 45-196 *)
Inductive expr :=
| ENull
| EBool (b : bool)
| EChar (z : Z)
| EInt (z : Z)
| EFloat (bits : Z)
| EStr (i : nat)                                    (* index of the string table *)
| EId (name : text) (r : option vref)
| ECall (f : text) (args : list expr)
| EBin (o : bop) (l r : expr)
| EUn (o : uop) (e : expr)
| EParen (e : expr)
| ENew (tg : nat) (names : list text) (args : list expr)   (* identity of the struct *)
| ECast (e : expr) (t : tag)
| EDot (e : expr) (f : text)
| EIndex (a i : expr)
| ETern (c a b : expr).

Inductive stmt :=
| SCall (line : Z) (f : text) (args : list expr)
| SAsg (line : Z) (op : tokkind) (l r : expr)
| SBlock (line : Z) (ss : list stmt)
| SProc (line : Z) (f : nat) (body : stmt)          (* identity of the function *)
| SIf (line : Z) (c : expr) (a : stmt) (b : option stmt)
| SWhile (line : Z) (c : expr) (body : stmt)
| SFor (line : Z) (init : stmt) (c : expr) (step body : stmt)
| SReturn (line : Z) (e : option expr)
| SBreak (line : Z)
| SContinue (line : Z)
| SUse (line : Z) (m : text) (args : list text) (asName : option text).

(** The same after [ResolveTypes]: every node knows its type, a call node of
    the index operator its functions (expr.h:160-167). *)
Inductive texpr :=
| TNull
| TBool (b : bool)
| TChar (z : Z)
| TInt (z : Z)
| TFloat (bits : Z)
| TStr (i : nat)
| TId (r : vref) (t : tag)
| TCall (f : text) (args : list texpr) (t : tag)
| TBin (o : bop) (l r : texpr) (t : tag)
| TUn (o : uop) (e : texpr) (t : tag)
| TParen (e : texpr)
| TNew (tg : nat) (names : list text) (args : list texpr)
| TCast (e : texpr) (t : tag)
| TDot (e : texpr) (f : text) (t : tag)
| TIndex (a i : texpr) (getf : nat) (setf : option nat) (t : tag)
| TTern (c a b : texpr) (t : tag).

Fixpoint tag_of (e : texpr) : tag :=
  match e with
  | TNull => GAny
  | TBool _ => GBool
  | TChar _ | TInt _ => GInt
  | TFloat _ => GFloat
  | TStr _ => GStr
  | TId _ t | TCall _ _ t | TBin _ _ _ t | TUn _ _ t | TCast _ t | TDot _ _ t
  | TIndex _ _ _ _ t | TTern _ _ _ t => t
  | TParen e => tag_of e
  | TNew tg _ _ => GSym tg
  end.

Inductive tstmt :=
| TSCall (line : Z) (f : text) (args : list texpr)
| TSDecl (line : Z) (r : vref) (e : texpr)              (* x := e *)
| TSAsg (line : Z) (op : tokkind) (l r : texpr)
| TSConst (line : Z)                                    (* x :: literal *)
| TSBad (line : Z)                                      (* any other operator *)
| TSBlock (line : Z) (ss : list tstmt)
| TSProc (line : Z) (f : nat) (body : tstmt)
| TSIf (line : Z) (c : texpr) (a : tstmt) (b : option tstmt)
| TSWhile (line : Z) (c : texpr) (body : tstmt)
| TSFor (line : Z) (init : tstmt) (c : texpr) (step body : tstmt)
| TSReturn (line : Z) (e : option texpr)
| TSBreak (line : Z)
| TSContinue (line : Z)
| TSUse (line : Z).

Definition stmt_line (s : tstmt) : Z :=
  match s with
  | TSCall l _ _ | TSDecl l _ _ | TSAsg l _ _ _ | TSConst l | TSBad l | TSBlock l _ | TSProc l _ _
  | TSIf l _ _ _ | TSWhile l _ _ | TSFor l _ _ _ _ | TSReturn l _ | TSBreak l | TSContinue l
  | TSUse l => l
  end.

(** Induction principles through the lists. *)
Section ExprInd.
Variable P : expr -> Prop.
Hypothesis Hnull : P ENull.
Hypothesis Hbool : forall b, P (EBool b).
Hypothesis Hchar : forall z, P (EChar z).
Hypothesis Hint : forall z, P (EInt z).
Hypothesis Hfloat : forall z, P (EFloat z).
Hypothesis Hstr : forall i, P (EStr i).
Hypothesis Hid : forall n r, P (EId n r).
Hypothesis Hcall : forall f args, Forall P args -> P (ECall f args).
Hypothesis Hbin : forall o l r, P l -> P r -> P (EBin o l r).
Hypothesis Hun : forall o e, P e -> P (EUn o e).
Hypothesis Hparen : forall e, P e -> P (EParen e).
Hypothesis Hnew : forall t ns args, Forall P args -> P (ENew t ns args).
Hypothesis Hcast : forall e t, P e -> P (ECast e t).
Hypothesis Hdot : forall e f, P e -> P (EDot e f).
Hypothesis Hindex : forall a i, P a -> P i -> P (EIndex a i).
Hypothesis Htern : forall c a b, P c -> P a -> P b -> P (ETern c a b).
Fixpoint expr_ind' (e : expr) : P e :=
  let fix go (l : list expr) : Forall P l :=
    match l with [] => Forall_nil P | x :: r => Forall_cons x (expr_ind' x) (go r) end in
  match e with
  | ENull => Hnull | EBool b => Hbool b | EChar z => Hchar z | EInt z => Hint z
  | EFloat z => Hfloat z | EStr i => Hstr i | EId n r => Hid n r
  | ECall f args => Hcall f args (go args)
  | EBin o l r => Hbin o l r (expr_ind' l) (expr_ind' r)
  | EUn o e => Hun o e (expr_ind' e)
  | EParen e => Hparen e (expr_ind' e)
  | ENew t ns args => Hnew t ns args (go args)
  | ECast e t => Hcast e t (expr_ind' e)
  | EDot e f => Hdot e f (expr_ind' e)
  | EIndex a i => Hindex a i (expr_ind' a) (expr_ind' i)
  | ETern c a b => Htern c a b (expr_ind' c) (expr_ind' a) (expr_ind' b)
  end.
End ExprInd.

Section TexprInd.
Variable P : texpr -> Prop.
Hypothesis Hnull : P TNull.
Hypothesis Hbool : forall b, P (TBool b).
Hypothesis Hchar : forall z, P (TChar z).
Hypothesis Hint : forall z, P (TInt z).
Hypothesis Hfloat : forall z, P (TFloat z).
Hypothesis Hstr : forall i, P (TStr i).
Hypothesis Hid : forall r t, P (TId r t).
Hypothesis Hcall : forall f args t, Forall P args -> P (TCall f args t).
Hypothesis Hbin : forall o l r t, P l -> P r -> P (TBin o l r t).
Hypothesis Hun : forall o e t, P e -> P (TUn o e t).
Hypothesis Hparen : forall e, P e -> P (TParen e).
Hypothesis Hnew : forall t ns args, Forall P args -> P (TNew t ns args).
Hypothesis Hcast : forall e t, P e -> P (TCast e t).
Hypothesis Hdot : forall e f t, P e -> P (TDot e f t).
Hypothesis Hindex : forall a i g s t, P a -> P i -> P (TIndex a i g s t).
Hypothesis Htern : forall c a b t, P c -> P a -> P b -> P (TTern c a b t).
Fixpoint texpr_ind' (e : texpr) : P e :=
  let fix go (l : list texpr) : Forall P l :=
    match l with [] => Forall_nil P | x :: r => Forall_cons x (texpr_ind' x) (go r) end in
  match e with
  | TNull => Hnull | TBool b => Hbool b | TChar z => Hchar z | TInt z => Hint z
  | TFloat z => Hfloat z | TStr i => Hstr i | TId r t => Hid r t
  | TCall f args t => Hcall f args t (go args)
  | TBin o l r t => Hbin o l r t (texpr_ind' l) (texpr_ind' r)
  | TUn o e t => Hun o e t (texpr_ind' e)
  | TParen e => Hparen e (texpr_ind' e)
  | TNew t ns args => Hnew t ns args (go args)
  | TCast e t => Hcast e t (texpr_ind' e)
  | TDot e f t => Hdot e f t (texpr_ind' e)
  | TIndex a i g s t => Hindex a i g s t (texpr_ind' a) (texpr_ind' i)
  | TTern c a b t => Htern c a b t (texpr_ind' c) (texpr_ind' a) (texpr_ind' b)
  end.
End TexprInd.

Section StmtInd.
Variable P : stmt -> Prop.
Hypothesis Hcall : forall n f a, P (SCall n f a).
Hypothesis Hasg : forall n o l r, P (SAsg n o l r).
Hypothesis Hblock : forall n ss, Forall P ss -> P (SBlock n ss).
Hypothesis Hproc : forall n f b, P b -> P (SProc n f b).
Hypothesis Hif : forall n c a b, P a -> (forall s, b = Some s -> P s) -> P (SIf n c a b).
Hypothesis Hwhile : forall n c b, P b -> P (SWhile n c b).
Hypothesis Hfor : forall n i c s b, P i -> P s -> P b -> P (SFor n i c s b).
Hypothesis Hret : forall n e, P (SReturn n e).
Hypothesis Hbreak : forall n, P (SBreak n).
Hypothesis Hcont : forall n, P (SContinue n).
Hypothesis Huse : forall n m a x, P (SUse n m a x).
Fixpoint stmt_ind' (s : stmt) : P s :=
  let fix go (l : list stmt) : Forall P l :=
    match l with [] => Forall_nil P | x :: r => Forall_cons x (stmt_ind' x) (go r) end in
  match s with
  | SCall n f a => Hcall n f a
  | SAsg n o l r => Hasg n o l r
  | SBlock n ss => Hblock n ss (go ss)
  | SProc n f b => Hproc n f b (stmt_ind' b)
  | SIf n c a b => Hif n c a b (stmt_ind' a)
      (match b as b' return forall s, b' = Some s -> P s with
       | Some x => fun s H => eq_ind x P (stmt_ind' x) s (f_equal (fun o => match o with Some y => y | None => x end) H)
       | None => fun s H => False_ind _ (eq_ind None (fun o => match o with None => True | Some _ => False end) I _ H)
       end)
  | SWhile n c b => Hwhile n c b (stmt_ind' b)
  | SFor n i c s b => Hfor n i c s b (stmt_ind' i) (stmt_ind' s) (stmt_ind' b)
  | SReturn n e => Hret n e
  | SBreak n => Hbreak n
  | SContinue n => Hcont n
  | SUse n m a x => Huse n m a x
  end.
End StmtInd.

Section TstmtInd.
Variable P : tstmt -> Prop.
Hypothesis Hcall : forall n f a, P (TSCall n f a).
Hypothesis Hdecl : forall n r e, P (TSDecl n r e).
Hypothesis Hasg : forall n o l r, P (TSAsg n o l r).
Hypothesis Hconst : forall n, P (TSConst n).
Hypothesis Hbad : forall n, P (TSBad n).
Hypothesis Hblock : forall n ss, Forall P ss -> P (TSBlock n ss).
Hypothesis Hproc : forall n f b, P b -> P (TSProc n f b).
Hypothesis Hif : forall n c a b, P a -> (forall s, b = Some s -> P s) -> P (TSIf n c a b).
Hypothesis Hwhile : forall n c b, P b -> P (TSWhile n c b).
Hypothesis Hfor : forall n i c s b, P i -> P s -> P b -> P (TSFor n i c s b).
Hypothesis Hret : forall n e, P (TSReturn n e).
Hypothesis Hbreak : forall n, P (TSBreak n).
Hypothesis Hcont : forall n, P (TSContinue n).
Hypothesis Huse : forall n, P (TSUse n).
Fixpoint tstmt_ind' (s : tstmt) : P s :=
  let fix go (l : list tstmt) : Forall P l :=
    match l with [] => Forall_nil P | x :: r => Forall_cons x (tstmt_ind' x) (go r) end in
  match s with
  | TSCall n f a => Hcall n f a
  | TSDecl n r e => Hdecl n r e
  | TSAsg n o l r => Hasg n o l r
  | TSConst n => Hconst n
  | TSBad n => Hbad n
  | TSBlock n ss => Hblock n ss (go ss)
  | TSProc n f b => Hproc n f b (tstmt_ind' b)
  | TSIf n c a b => Hif n c a b (tstmt_ind' a)
      (match b as b' return forall s, b' = Some s -> P s with
       | Some x => fun s H => eq_ind x P (tstmt_ind' x) s (f_equal (fun o => match o with Some y => y | None => x end) H)
       | None => fun s H => False_ind _ (eq_ind None (fun o => match o with None => True | Some _ => False end) I _ H)
       end)
  | TSWhile n c b => Hwhile n c b (tstmt_ind' b)
  | TSFor n i c s b => Hfor n i c s b (tstmt_ind' i) (tstmt_ind' s) (tstmt_ind' b)
  | TSReturn n e => Hret n e
  | TSBreak n => Hbreak n
  | TSContinue n => Hcont n
  | TSUse n => Huse n
  end.
End TstmtInd.
