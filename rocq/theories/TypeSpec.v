(** * Types at run time

    What it means for a value to have a type, for the operands of an instruction
    to be of the right kind, and for the host to keep its side of the contract. *)
From Verif Require Import Base Token Values Code Heap VM VMSpec Syntax Symbols Resolve Compile Layout HeightSpec.
Local Open Scope nat_scope.

(** ** The operands of an instruction

    Null is always possible: a variable is null before its first assignment, and
    so is the result of a function that ends without [return]. *)
Definition int_or_null (v : value) : Prop := v = VNull \/ exists i, v = VInt i.
Definition number_or_null (v : value) : Prop := int_or_null v \/ exists b, v = VFloat b.
Definition bool_or_null (v : value) : Prop := v = VNull \/ exists b, v = VBool b.
(** a struct with a field number [k] *)
Definition struct_or_null (h : heap) (k : nat) (v : value) : Prop :=
  v = VNull \/ exists o, v = VStruct o /\
    forall ob, In ob h -> o_id ob = o -> exists vs, o_body ob = BStruct vs /\ k < length vs.

Definition right_kinds (h : heap) (i : instr) (stk : list value) : Prop :=
  match i, stk with
  | IBin o, b :: a :: _ =>
      if is_narrow o then int_or_null a /\ int_or_null b else number_or_null a /\ number_or_null b
  | IAdd1, a :: _ | ISub1, a :: _ => int_or_null a
  | INot, a :: _ | IGotoz _, a :: _ => bool_or_null a
  | IStructGet k, a :: _ | IStructSet k, a :: _ :: _ => struct_or_null h (Z.to_nat k) a
  | IBin _, _ | IAdd1, _ | ISub1, _ | INot, _ | IGotoz _, _ | IStructGet _, _ | IStructSet _, _ => False
  | _, _ => True
  end.

(** The next instruction of a thread gets operands of the right kind. *)
Definition operands_ok {H} (M : machine H) (t : thread H) : Prop :=
  forall i next, at_instr M t i next -> right_kinds (t_heap t) i (t_stk t).

(** ** Values and types *)

(** Which struct type each struct object was made as. *)
Definition store := nat -> option nat.
Definition store0 : store := fun _ => None.
Definition more (S S' : store) : Prop := forall o id, S o = Some id -> S' o = Some id.

Section Types.
Variable t : tbl.

(** [has S g v]: [v] is a value of type [g].  Void, any and foreign types say
    nothing about the value. *)
Inductive has (S : store) : tag -> value -> Prop :=
| has_null g : has S g VNull
| has_bool b : has S GBool (VBool b)
| has_int i : has S GInt (VInt i)
| has_float b : has S GFloat (VFloat b)
| has_str o : has S GStr (VStr o)
| has_cstr s : has S GStr (VCStr s)
| has_struct id o : S o = Some id -> kind_of t (GSym id) = Some KStruct -> has S (GSym id) (VStruct o)
| has_nullable id g v : kind_of t (GSym id) = Some (KNullable g) -> has S g v -> has S (GSym id) v
| has_open g v : kind_of t g = Some KVoid \/ kind_of t g = Some KAny \/ kind_of t g = Some KForeign -> has S g v.

(** No type known: no constraint *)
Definition has_opt (S : store) (g : option tag) (v : value) : Prop := forall g', g = Some g' -> has S g' v.

Definition fun_sig (i : nat) (args locals : list lvar) (ret : option tag) : Prop :=
  exists y, In y (tb_syms t) /\ sy_body y = SyFunc i args locals ret.
(** The arguments of a call of a Tiny function *)
Definition args_typed (S : store) (args : list lvar) (vs : list value) : Prop :=
  Forall2 (fun a v => has_opt S (lv_tag a) v) args vs.
(** ... and of a foreign one, which may take more *)
Definition foreign_args (S : store) (params : list tag) (va : bool) (vs : list value) : Prop :=
  exists vs1 vs2, vs = vs1 ++ vs2 /\ Forall2 (has S) params vs1 /\ (va = false -> vs2 = []).

(** Global variable number [i] *)
Definition global_typed (S : store) (i : nat) (v : value) : Prop :=
  forall y b g, In y (tb_syms t) -> sy_body y = SyGlobal i b (Some g) -> has S g v.

(** An object that was made as a struct of type [id] *)
Definition object_typed (S : store) (id : nat) (b : obody) : Prop :=
  exists fs vs, sfields t id = Some fs /\ b = BStruct vs /\ Forall2 (fun f v => has S (fd_tag f) v) fs vs.

(** ** The host

    [inv]: what the host maintains about its own memory.  A foreign function
    keeps its side of the contract if it returns a value of its type, stores in
    global variables and passes to Tiny functions only values of the right type,
    and maintains [inv]; it may rely on the types of what it reads. *)
Variable H : Type.
Variable inv : store -> H -> Prop.

Fixpoint polite (S : store) (ret : tag) (p : fprog H) : Prop :=
  match p with
  | FRet v => has S ret v
  | FAbort | FUB => True
  | FHost k => forall w, inv S w -> polite S ret (k w)
  | FSetHost w k => inv S w /\ polite S ret k
  | FObj v k => forall b, (forall o id, v = VStruct o -> S o = Some id -> object_typed S id b) -> polite S ret (k b)
  | FNewStr _ k => forall o, polite S ret (k (VStr o))
  | FNewNative _ _ k => forall o, polite S ret (k (VNative o))
  | FGetGlobal i k => forall v, global_typed S (Z.to_nat i) v -> polite S ret (k v)
  | FSetGlobal i v k => global_typed S (Z.to_nat i) v /\ polite S ret k
  | FCall f args k => exists params locals r, fun_sig (Z.to_nat f) params locals r /\ args_typed S params args /\
      forall S' v, more S S' -> has_opt S' r v -> polite S' ret (k v)
  end.

(** Every foreign function of the program keeps it, finalizers maintain [inv],
    and new struct objects do not break it. *)
Record polite_host (callees : nat -> list value -> fprog H) (N : natives H) : Prop := {
  ph_foreign : forall y i params va r c S vs, In y (tb_syms t) -> sy_body y = SyForeign i params va r c ->
    foreign_args S params va vs -> polite S r (callees c vs);
  ph_finalize : forall S p w a, inv S w -> inv S (n_finalize N p w a);
  ph_more : forall S S' w, more S S' -> inv S w -> inv S' w
}.

(** ** Threads *)
Record typed_thread (S : store) (u : thread H) : Prop := {
  tt_ok : thread_ok u;
  tt_new : forall o id, S o = Some id -> o < t_next u;
  tt_heap : forall ob id, In ob (t_heap u) -> S (o_id ob) = Some id -> object_typed S id (o_body ob);
  tt_globs : forall g i v, t_globs u = Some g -> nth_error g i = Some v -> global_typed S i v;
  tt_host : inv S (t_host u)
}.
End Types.

(** ** The statically typed fragment

    What the type checker lets through although it makes no sense at run time:
    - casts from [any];
    - [x + 1] and [x - 1] on floats (compiled to an integer increment);
    - compound assignments to variables that are no numbers;
    - calls of Tiny functions with too few arguments;
    - index operators whose functions take other types. *)
Section Static.
Variable t : tbl.
Definition assign_ok (g g' : tag) : Prop := exists n, assignable n t g g' = Some true.
(** the arguments of types [gs] fit the parameters *)
Fixpoint fit (params : list (option tag)) (va : bool) (gs : list tag) : Prop :=
  match params, gs with
  | [], [] => True
  | [], _ :: _ => va = true
  | p :: params', g :: gs' => (exists q, p = Some q /\ assign_ok g q) /\ fit params' va gs'
  | _ :: _, [] => False
  end.
Definition fit_sym (y : option sym) (gs : list tag) : Prop :=
  forall s params va ret, y = Some s -> sig_of (sy_body s) = Some (params, va, ret) -> fit params va gs.
(** enough arguments *)
Definition enough (y : option sym) (n : nat) : Prop :=
  forall s params va ret, y = Some s -> sig_of (sy_body s) = Some (params, va, ret) -> length params <= n.

Fixpoint static_e (e : texpr) : Prop :=
  match e with
  | TNew _ _ args => all_of (map static_e args)
  | TCall f args _ => enough (reference_function t f) (length args) /\ all_of (map static_e args)
  | TBin o l r _ => static_e l /\ static_e r /\
      match o with BAdd | BSub => is_one r = true -> tag_of l = GInt | _ => True end
  | TUn _ e _ | TParen e | TDot e _ _ => static_e e
  | TCast e g => static_e e /\ kind_of t g = Some KAny
  | TIndex a i g _ _ => static_e a /\ static_e i /\ fit_sym (sym_at t g) [tag_of a; tag_of i]
  | TTern c a b _ => static_e c /\ static_e a /\ static_e b
  | _ => True
  end.
(** the left side of a compound assignment with operator [o] *)
Definition compound_typed (o : binop) (g : tag) : Prop := g = GInt \/ (g = GFloat /\ is_narrow o = false).
Definition static_asg (op : tokkind) (l r : texpr) : Prop :=
  static_e l /\ static_e r /\
  (forall o, compound_op op = Some o -> compound_typed o (tag_of l)) /\
  match l with
  | TIndex a i _ (Some f) _ => fit_sym (sym_at t f) [tag_of a; tag_of i; tag_of l]
  | _ => True
  end.
Fixpoint static_s (s : tstmt) : Prop :=
  match s with
  | TSCall _ f args => enough (reference_function t f) (length args) /\ all_of (map static_e args)
  | TSDecl _ _ e => static_e e
  | TSAsg _ op l r => static_asg op l r
  | TSBlock _ ss => all_of (map static_s ss)
  | TSProc _ _ body => static_s body
  | TSIf _ c a b => static_e c /\ static_s a /\ match b with Some b => static_s b | None => True end
  | TSWhile _ c body => static_e c /\ static_s body
  | TSFor _ i c st body => static_s i /\ static_e c /\ static_s st /\ static_s body
  | TSReturn _ (Some e) => static_e e
  | _ => True
  end.
End Static.
