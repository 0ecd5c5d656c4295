(** * The typing rules of Tiny

    The rules as a reference manual would give them: when a value of one type may
    be stored where another is expected, what the type of each expression is, and
    which statements are well typed.  Nothing here refers to the functions of the
    type checker (Resolve.v, /repo/tiny/src/tiny.c:2460-3035); Props_Typing.v
    proves that it accepts exactly what these rules derive. *)
From Verif Require Import Base Token Values Syntax Symbols.
Local Open Scope nat_scope.

(** [x] is the first element of [l] with property [P]. *)
Definition first {A} (P : A -> Prop) (l : list A) (x : A) : Prop :=
  exists before after, l = before ++ x :: after /\ P x /\ Forall (fun y => ~ P y) before.

(** ** What names and references mean *)

(** The symbol a reference points to *)
Definition denotes (t : tbl) (id : nat) (name : text) (b : symbody) : Prop :=
  first (fun s => sy_id s = id) (tb_syms t) (mkSym id name b).

(** The function a call by name means: the oldest of that name, of either kind *)
Definition a_function (name : text) (s : sym) : Prop :=
  sy_name s = name /\
  ((exists i args locals ret, sy_body s = SyFunc i args locals ret) \/
   (exists i args va ret c, sy_body s = SyForeign i args va ret c)).
Definition function_named (t : tbl) (name : text) (s : sym) : Prop := first (a_function name) (tb_syms t) s.
Definition no_function_named (t : tbl) (name : text) : Prop := Forall (fun s => ~ a_function name s) (tb_syms t).

(** Its parameters, whether it takes further arguments, and its result *)
Inductive signature : symbody -> list (option tag) -> bool -> tag -> Prop :=
| sig_tiny i args locals g : signature (SyFunc i args locals (Some g)) (map lv_tag args) false g
| sig_foreign i args va g c : signature (SyForeign i args va g c) (map Some args) va g.

Definition field_named (fs : list field) (name : text) (g : tag) : Prop :=
  first (fun f => fd_name f = name) fs (mkField name g).

(** ** Types *)
Inductive is_type (t : tbl) : tag -> Prop :=
| ty_void : is_type t GVoid
| ty_bool : is_type t GBool
| ty_int : is_type t GInt
| ty_float : is_type t GFloat
| ty_str : is_type t GStr
| ty_any : is_type t GAny
| ty_struct id name d fs : denotes t id name (SyStruct d fs) -> is_type t (GSym id)
| ty_foreign id name : denotes t id name SyForeignTag -> is_type t (GSym id)
| ty_nullable id name g : denotes t id name (SyNullable g) -> is_type t (GSym id).

Inductive type_name (t : tbl) : tag -> text -> Prop :=
| tn_void : type_name t GVoid (text_of "void")
| tn_bool : type_name t GBool (text_of "bool")
| tn_int : type_name t GInt (text_of "int")
| tn_float : type_name t GFloat (text_of "float")
| tn_str : type_name t GStr (text_of "str")
| tn_any : type_name t GAny (text_of "any")
| tn_sym id name b : denotes t id name b -> type_name t (GSym id) name.

(** [assigns t src dest]: a value of type [src] may be stored in a place of type
    [dest].  Everything but [void] goes into [any]; [T?] takes what [T] takes, but
    not an [any]; nothing nullable goes into a nullable; structs and foreign types
    go by name; there is no other conversion, not even from [int] to [float]. *)
Inductive assigns (t : tbl) : tag -> tag -> Prop :=
| as_any g : is_type t g -> g <> GVoid -> assigns t g GAny
| as_bool : assigns t GBool GBool
| as_int : assigns t GInt GInt
| as_float : assigns t GFloat GFloat
| as_str : assigns t GStr GStr
| as_struct a b name d fs d' fs' : denotes t a name (SyStruct d fs) -> denotes t b name (SyStruct d' fs') ->
    assigns t (GSym a) (GSym b)
| as_foreign a b name : denotes t a name SyForeignTag -> denotes t b name SyForeignTag -> assigns t (GSym a) (GSym b)
| as_nullable g id name inner : denotes t id name (SyNullable inner) -> g <> GAny -> assigns t g inner ->
    assigns t g (GSym id).

(** ** Variables *)
Inductive var_type (t : tbl) : vref -> tag -> Prop :=
| vt_global id name i b g : denotes t id name (SyGlobal i b (Some g)) -> var_type t (RGlobal id) g
| vt_bool id name b : denotes t id name (SyConst (KBool b)) -> var_type t (RConst id) GBool
| vt_int id name z : denotes t id name (SyConst (KInt z)) -> var_type t (RConst id) GInt
| vt_float id name z : denotes t id name (SyConst (KFloat z)) -> var_type t (RConst id) GFloat
| vt_str id name z : denotes t id name (SyConst (KStr z)) -> var_type t (RConst id) GStr
| vt_local f name n args locals ret i v g : denotes t f name (SyFunc n args locals ret) ->
    nth_error locals i = Some v -> lv_tag v = Some g -> var_type t (RLocal f i) g
| vt_arg f name n args locals ret i v g : denotes t f name (SyFunc n args locals ret) ->
    nth_error args i = Some v -> lv_tag v = Some g -> var_type t (RArg f i) g.

(** ** Operators *)
Inductive number : tag -> Prop := num_int : number GInt | num_float : number GFloat.

Inductive binary (t : tbl) : bop -> tag -> tag -> tag -> Prop :=
| bi_int o : In o [BAdd; BSub; BMul; BDiv] -> binary t o GInt GInt GInt
| bi_float o a b : In o [BAdd; BSub; BMul; BDiv] -> number a -> number b -> a = GFloat \/ b = GFloat -> binary t o a b GFloat
| bi_bits o : In o [BAnd; BOr; BMod; BShl; BShr] -> binary t o GInt GInt GInt
| bi_logic o : In o [BLand; BLor] -> binary t o GBool GBool GBool
| bi_compare o a b : In o [BGt; BLt; BLte; BGte] -> number a -> number b -> binary t o a b GBool
| bi_equal o a b : In o [BEq; BNe] -> is_type t a -> is_type t b -> a <> GVoid -> b <> GVoid -> binary t o a b GBool.

Inductive unary : uop -> tag -> tag -> Prop :=
| un_int : unary UMinus GInt GInt
| un_float : unary UMinus GFloat GFloat
| un_not : unary UNot GBool GBool.

(** ** Expressions

    [types t e te]: [e] is well typed and [te] is [e] with the types written in;
    [tag_of te] is its type. *)

(** The names under which the index operator is looked up: those of the type of
    the indexed expression, which the implementation cuts to 255 characters *)
Definition getter (name : text) : text := firstn 255 (name ++ text_of "_get_index").
Definition setter (name : text) : text := firstn 255 (name ++ text_of "_set_index").
Inductive setter_of (t : tbl) (name : text) : option nat -> Prop :=
| so_some s : function_named t (setter name) s -> setter_of t name (Some (sy_id s))
| so_none : no_function_named t (setter name) -> setter_of t name None.

Inductive types (t : tbl) : expr -> texpr -> Prop :=
| ty_enull : types t ENull TNull
| ty_ebool b : types t (EBool b) (TBool b)
| ty_echar z : types t (EChar z) (TChar z)
| ty_eint z : types t (EInt z) (TInt z)
| ty_efloat z : types t (EFloat z) (TFloat z)
| ty_estr i : types t (EStr i) (TStr i)
| ty_eid name r g : var_type t r g -> types t (EId name (Some r)) (TId r g)
| ty_ecall f args s params va g tes : function_named t f s -> signature (sy_body s) params va g ->
    arguments t params va args tes -> types t (ECall f args) (TCall f tes g)
| ty_eparen e te : types t e te -> types t (EParen e) (TParen te)
| ty_ebin o l r tl tr g : types t l tl -> types t r tr -> binary t o (tag_of tl) (tag_of tr) g ->
    types t (EBin o l r) (TBin o tl tr g)
| ty_eun o e te g : types t e te -> unary o (tag_of te) g -> types t (EUn o e) (TUn o te g)
| ty_edot e te id name d fs f g : types t e te -> tag_of te = GSym id -> denotes t id name (SyStruct d fs) ->
    field_named fs f g -> types t (EDot e f) (TDot te f g)
| ty_enew id name fs args tes : denotes t id name (SyStruct true fs) ->
    arguments t (map (fun f => Some (fd_tag f)) fs) false args tes -> types t (ENew id [] args) (TNew id [] tes)
| ty_enamed id name fs names args tes : denotes t id name (SyStruct true fs) -> names <> [] -> length args <= length fs ->
    designated t fs names args tes -> types t (ENew id names args) (TNew id names tes)
| ty_ecast e te g : types t e te -> is_type t g -> is_type t (tag_of te) -> tag_of te = GAny \/ g = GAny ->
    types t (ECast e g) (TCast te g)
| ty_etern c a b tc ta tb : types t c tc -> types t a ta -> types t b tb -> tag_of tc = GBool ->
    tag_of ta = tag_of tb -> types t (ETern c a b) (TTern tc ta tb (tag_of ta))
| ty_eindex a i ta ti name s params va g set : types t a ta -> types t i ti -> type_name t (tag_of ta) name ->
    function_named t (getter name) s -> signature (sy_body s) params va g -> setter_of t name set ->
    types t (EIndex a i) (TIndex ta ti (sy_id s) set g)
(** The arguments of a call, against the parameters: fewer are accepted here
    (calls with too few arguments are a finding), more only by a variadic function *)
with arguments (t : tbl) : list (option tag) -> bool -> list expr -> list texpr -> Prop :=
| ar_end params va : arguments t params va [] []
| ar_param p params va e te es tes : types t e te -> assigns t (tag_of te) p -> arguments t params va es tes ->
    arguments t (Some p :: params) va (e :: es) (te :: tes)
| ar_more e te es tes : types t e te -> arguments t [] true es tes -> arguments t [] true (e :: es) (te :: tes)
(** The initialisers [.name = e] of a structure *)
with designated (t : tbl) : list field -> list text -> list expr -> list texpr -> Prop :=
| de_end fs names : designated t fs names [] []
| de_field fs name names g e te es tes : types t e te -> field_named fs name g -> assigns t (tag_of te) g ->
    designated t fs names es tes -> designated t fs (name :: names) (e :: es) (te :: tes).

(** ** Statements

    [well_typed t s ts t']: [s] is well typed under [t]; [t'] differs from [t] in
    the types of the variables that [s] declares with [:=]. *)

(** Symbol [y] once variable [v] has type [g] *)
Definition with_type (v : vref) (g : tag) (y : sym) : sym :=
  let typed (x : lvar) := mkLv (lv_name x) (lv_index x) (lv_scope x) (lv_ended x) (lv_init x) (Some g) in
  let at_i i (l : list lvar) := map (fun p => if fst p =? i then typed (snd p) else snd p) (combine (seq 0 (length l)) l) in
  match v, sy_body y with
  | RGlobal id, SyGlobal i b _ => if sy_id y =? id then mkSym (sy_id y) (sy_name y) (SyGlobal i b (Some g)) else y
  | RLocal f i, SyFunc n args locals ret => if sy_id y =? f then mkSym (sy_id y) (sy_name y) (SyFunc n args (at_i i locals) ret) else y
  | RArg f i, SyFunc n args locals ret => if sy_id y =? f then mkSym (sy_id y) (sy_name y) (SyFunc n (at_i i args) locals ret) else y
  | _, _ => y
  end.

(** [v] is a variable (with or without a type) *)
Inductive a_variable (t : tbl) : vref -> Prop :=
| av_global id name i b g : denotes t id name (SyGlobal i b g) -> a_variable t (RGlobal id)
| av_local f name n args locals ret i : denotes t f name (SyFunc n args locals ret) -> i < length locals -> a_variable t (RLocal f i)
| av_arg f name n args locals ret i : denotes t f name (SyFunc n args locals ret) -> i < length args -> a_variable t (RArg f i).

Definition declare_type (t : tbl) (v : vref) (g : tag) : tbl := set_syms t (map (with_type v g) (tb_syms t)).

(** The result type of the function being compiled *)
Definition result_type (t : tbl) (g : tag) : Prop :=
  exists f name n args locals, tb_func t = Some f /\ denotes t f name (SyFunc n args locals (Some g)).

Definition assign_ops := [EQUAL; PLUSEQUAL; MINUSEQUAL; STAREQUAL; SLASHEQUAL; PERCENTEQUAL; OREQUAL; ANDEQUAL].

Inductive well_typed : tbl -> stmt -> tstmt -> tbl -> Prop :=
| wt_break t n : well_typed t (SBreak n) (TSBreak n) t
| wt_continue t n : well_typed t (SContinue n) (TSContinue n) t
| wt_use t n m args x : well_typed t (SUse n m args x) (TSUse n) t
| wt_call t n f args tes g : types t (ECall f args) (TCall f tes g) -> well_typed t (SCall n f args) (TSCall n f tes) t
| wt_declare t n name v e te : types t e te -> is_type t (tag_of te) -> tag_of te <> GVoid -> a_variable t v ->
    well_typed t (SAsg n DECLARE (EId name (Some v)) e) (TSDecl n v te) (declare_type t v (tag_of te))
| wt_assign t n op l e tl te : In op assign_ops -> types t l tl -> types t e te -> assigns t (tag_of te) (tag_of tl) ->
    well_typed t (SAsg n op l e) (TSAsg n op tl te) t
| wt_const t n l e te : types t e te -> well_typed t (SAsg n DECLARECONST l e) (TSConst n) t
| wt_other t n op l e te : ~ In op (DECLARE :: DECLARECONST :: assign_ops) -> types t e te -> well_typed t (SAsg n op l e) (TSBad n) t
| wt_block t n ss ts t' : all_typed t ss ts t' -> well_typed t (SBlock n ss) (TSBlock n ts) t'
| wt_proc t n f b tb t' : well_typed (set_func t (Some f)) b tb t' ->
    well_typed t (SProc n f b) (TSProc n f tb) (set_func t' (tb_func t))
| wt_if t n c a tc ta t' : types t c tc -> tag_of tc = GBool -> well_typed t a ta t' ->
    well_typed t (SIf n c a None) (TSIf n tc ta None) t'
| wt_else t n c a b tc ta tb t1 t' : types t c tc -> tag_of tc = GBool -> well_typed t a ta t1 -> well_typed t1 b tb t' ->
    well_typed t (SIf n c a (Some b)) (TSIf n tc ta (Some tb)) t'
| wt_while t n c b tc tb t' : types t c tc -> tag_of tc = GBool -> well_typed t b tb t' ->
    well_typed t (SWhile n c b) (TSWhile n tc tb) t'
| wt_for t n i c s b ti tc ts tb t1 t2 t' : well_typed t i ti t1 -> types t1 c tc -> tag_of tc = GBool ->
    well_typed t1 s ts t2 -> well_typed t2 b tb t' -> well_typed t (SFor n i c s b) (TSFor n ti tc ts tb) t'
| wt_return t n e te g : result_type t g -> types t e te -> assigns t (tag_of te) g ->
    well_typed t (SReturn n (Some e)) (TSReturn n (Some te)) t
| wt_return_void t n : result_type t GVoid -> well_typed t (SReturn n None) (TSReturn n None) t
with all_typed : tbl -> list stmt -> list tstmt -> tbl -> Prop :=
| al_end t : all_typed t [] [] t
| al_next t s ss ts tss t1 t' : well_typed t s ts t1 -> all_typed t1 ss tss t' -> all_typed t (s :: ss) (ts :: tss) t'.
