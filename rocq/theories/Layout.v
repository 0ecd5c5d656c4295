(** * Where the code of an expression or statement lies in a program

    [lay e a b]: the bytes from address [a] up to [b] are the instructions that
    compute [e].  CompileProofs.v shows that the compiler produces such code,
    Simulate.v that such code computes the meaning given in Source.v. *)
From Verif Require Import Base Token Values Code CodeSpec CodeProofs Syntax Symbols Compile.
Local Open Scope Z_scope.

(** What decoding gives back for an emitted instruction: operands are cut to
    the bytes they occupy. *)
Definition norm (i : instr) : instr :=
  match i with
  | IPushInt z => IPushInt (wrap64 z)
  | IPushFloat b => IPushFloat (b mod 2^64)
  | ISet v => ISet (v mod 2^32) | IGet v => IGet (v mod 2^32)
  | IGoto v => IGoto (v mod 2^32) | IGotoz v => IGotoz (v mod 2^32)
  | IGetLocal v => IGetLocal (v mod 2^32) | ISetLocal v => ISetLocal (v mod 2^32)
  | ICall n v => ICall n (v mod 2^32) | ICallF n v => ICallF n (v mod 2^32)
  | _ => i
  end.

(** The program counter a function symbol is entered through, etc. *)
Definition gidx (t : tbl) (id : nat) : option nat :=
  match sym_at t id with Some (mkSym _ _ (SyGlobal i _ _)) => Some i | _ => None end.
Definition lidx (t : tbl) (r : vref) : option Z := option_map lv_index (var_of t r).
Definition cval (t : tbl) (id : nat) : option constv :=
  match sym_at t id with Some (mkSym _ _ (SyConst c)) => Some c | _ => None end.
Definition sfields (t : tbl) (id : nat) : option (list field) :=
  match sym_at t id with Some (mkSym _ _ (SyStruct true fs)) => Some fs | _ => None end.

(** A foreign function gets as many arguments as it has parameters; a variadic
    one at least as many. *)
Definition arity_ok (n : Z) (args : nat) (va : bool) : bool := (Z.of_nat args =? n) || (va && (Z.of_nat args <=? n)).
Definition call_instr (n : Z) (b : symbody) : option instr :=
  match b with
  | SyFunc i _ _ _ => Some (ICall n (Z.of_nat i))
  | SyForeign i args va _ _ => if arity_ok n (length args) va then Some (ICallF n (Z.of_nat i)) else None
  | _ => None
  end.

Definition int_instr (z : Z) : instr :=
  if z =? 0 then IPush0 else if z =? 1 then IPush1 else IPushInt z.

Section Lay.
Variable t : tbl.
Variable C : program.

Definition at_i (a : Z) (i : instr) (b : Z) : Prop := decode C a = Ok (norm i, b).

(** Jumps from [a] to [x]; [b] is the address after the jump *)
Definition jmp (a x b : Z) : Prop := exists k, decode C a = Ok (IGoto k, b) /\ to_signed32 k = x.
Definition jz (a x b : Z) : Prop := exists k, decode C a = Ok (IGotoz k, b) /\ to_signed32 k = x.

(** A string constant: only the short form can be decoded *)
Definition at_str (i : nat) (a b : Z) : Prop :=
  0 <= a < b /\ ((i < 256)%nat -> at_i a (IPushStringFF (Z.of_nat i)) b).

Definition at_ref (r : vref) (a b : Z) : Prop :=
  match r with
  | RGlobal id => exists i, gidx t id = Some i /\ at_i a (IGet (Z.of_nat i)) b
  | RConst id =>
      exists c, cval t id = Some c /\
        match c with
        | KStr i => at_str i a b
        | KBool v => at_i a (if v then IPushTrue else IPushFalse) b
        | KInt z => at_i a (int_instr z) b
        | KFloat f => at_i a (IPushFloat f) b
        end
  | _ => exists k, lidx t r = Some k /\
           at_i a (if (k <? 0) || (255 <? k) then IGetLocal k else IGetLocalW k) b
  end.

Definition at_set (r : vref) (a b : Z) : Prop :=
  match r with
  | RGlobal id => exists i, gidx t id = Some i /\ at_i a (ISet (Z.of_nat i)) b
  | RConst id => False
  | _ => exists k, lidx t r = Some k /\ at_i a (ISetLocal k) b
  end.

Definition at_call (n : Z) (y : option sym) (a b : Z) : Prop :=
  exists s i, y = Some s /\ call_instr n (sy_body s) = Some i /\ at_i a i b.

Fixpoint lay_seq (ls : list (Z -> Z -> Prop)) (a b : Z) : Prop :=
  match ls with
  | [] => a = b
  | l :: ls' => exists m, l a m /\ lay_seq ls' m b
  end.

(** The initialiser of the field [f], nothing if there is none *)
Fixpoint lay_pick (f : text) (names : list text) (ls : list (Z -> Z -> Prop)) (a b : Z) : Prop :=
  match names, ls with
  | nm :: names', l :: ls' => if text_eqb nm f then l a b else lay_pick f names' ls' a b
  | _, _ => a = b
  end.
Fixpoint lay_fields (fs : list field) (names : list text) (ls : list (Z -> Z -> Prop)) (a b : Z) : Prop :=
  match fs with
  | [] => a = b
  | f :: fs' => exists m, lay_pick (fd_name f) names ls a m /\ lay_fields fs' names ls m b
  end.

Definition lay_bin (o : binop) (inc : instr) (one : bool) (l r : Z -> Z -> Prop) (a b : Z) : Prop :=
  exists m, l a m /\
    if one then at_i m inc b else exists m', r m m' /\ at_i m' (IBin o) b.

Fixpoint lay (e : texpr) (a b : Z) : Prop :=
  match e with
  | TNull => at_i a IPushNull b
  | TBool v => at_i a (if v then IPushTrue else IPushFalse) b
  | TInt z | TChar z => at_i a (int_instr z) b
  | TFloat f => at_i a (IPushFloat f) b
  | TStr i => at_str i a b
  | TId r _ => at_ref r a b
  | TDot l f _ => exists m k, field_no t (tag_of l) f = Some k /\ lay l a m /\ at_i m (IStructGet k) b
  | TIndex x i g _ _ =>
      exists m1 m2 m3, lay x a m1 /\ lay i m1 m2 /\ at_call 2 (sym_at t g) m2 m3 /\ at_i m3 IGetRetval b
  | TCall f args _ =>
      exists m1 m2, lay_seq (map lay args) a m1 /\
        at_call (Z.of_nat (length args)) (reference_function t f) m1 m2 /\ at_i m2 IGetRetval b
  | TNew id names args =>
      exists fs m, sfields t id = Some fs /\
        match names with
        | [] => lay_seq (map lay args) a m
        | _ => lay_fields fs names (map lay args) a m
        end /\ at_i m (IPushStruct (Z.of_nat (length fs) mod 256)) b
  | TCast e _ | TParen e => lay e a b
  | TBin BAdd l r _ => lay_bin OAdd IAdd1 (is_one r) (lay l) (lay r) a b
  | TBin BSub l r _ => lay_bin OSub ISub1 (is_one r) (lay l) (lay r) a b
  | TBin BEq l r _ => exists m1 m2, lay l a m1 /\ lay r m1 m2 /\ at_i m2 IEqu b
  | TBin BNe l r _ =>
      exists m1 m2 m3, lay l a m1 /\ lay r m1 m2 /\ at_i m2 IEqu m3 /\ at_i m3 INot b
  | TBin BLand l r _ =>
      exists m1 m2 m3 m4, lay l a m1 /\ jz m1 m4 m2 /\ lay r m2 m3 /\ jmp m3 b m4 /\ at_i m4 IPushFalse b
  | TBin BLor l r _ =>
      exists m1 m2 m3 m4, lay l a m1 /\ jz m1 m4 m2 /\ at_i m2 IPushTrue m3 /\ jmp m3 b m4 /\ lay r m4 b
  | TBin o l r _ =>
      match binop_of o with
      | Some op => lay_bin op IAdd1 false (lay l) (lay r) a b
      | None => False
      end
  | TUn UMinus e0 _ =>
      match e0 with
      | TInt z => at_i a (IPushInt (- z)) b
      | _ => exists m1 m2, lay e0 a m1 /\ at_i m1 (IPushInt (-1)) m2 /\ at_i m2 (IBin OMul) b
      end
  | TUn UNot e0 _ => exists m, lay e0 a m /\ at_i m INot b
  | TTern c x y _ =>
      exists m1 m2 m3 m4, lay c a m1 /\ jz m1 m4 m2 /\ lay x m2 m3 /\ jmp m3 b m4 /\ lay y m4 b
  end.

Definition lay_call (f : text) (args : list texpr) (a b : Z) : Prop :=
  exists m, lay_seq (map lay args) a m /\
    at_call (Z.of_nat (length args)) (reference_function t f) m b.

Definition lay_rhs (op : tokkind) (l r : texpr) (a b : Z) : Prop :=
  match compound_op op with
  | None => lay r a b
  | Some OAdd => lay_bin OAdd IAdd1 (is_one r) (lay l) (lay r) a b
  | Some OSub => lay_bin OSub ISub1 (is_one r) (lay l) (lay r) a b
  | Some o => lay_bin o IAdd1 false (lay l) (lay r) a b
  end.

Definition lay_assign (op : tokkind) (l r : texpr) (a b : Z) : Prop :=
  match l with
  | TId v _ => exists m, lay_rhs op l r a m /\ at_set v m b
  | TDot o f _ =>
      exists m1 m2 k, lay_rhs op l r a m1 /\ field_no t (tag_of o) f = Some k /\
        lay o m1 m2 /\ at_i m2 (IStructSet k) b
  | TIndex x i _ setf _ =>
      exists m1 m2 m3 f, setf = Some f /\ lay x a m1 /\ lay i m1 m2 /\ lay_rhs op l r m2 m3 /\
        at_call 3 (sym_at t f) m3 b
  | _ => False
  end.

(** [T]: what the operands of the jumps that leave the statement must satisfy
    ([true] for break); the list: where these operands are *)
Fixpoint lay_stmts (ls : list (Z -> Z -> list (bool * Z) -> Prop)) (a b : Z) (p : list (bool * Z)) : Prop :=
  match ls with
  | [] => a = b /\ p = []
  | l :: ls' => exists m p1 p2, l a m p1 /\ lay_stmts ls' m b p2 /\ p = p1 ++ p2
  end.

(** operands of pending jumps whose target is not known yet *)
Definition anywhere (b : bool) (x : Z) : Prop := True.
Definition targets (brk cont : Z) (b : bool) (x : Z) : Prop := x = if b then brk else cont.

(** The code of a function: its locals, its body, a final return *)
Definition lay_fun (body : Z -> Z -> Prop) (f : nat) (a b : Z) : Prop :=
  exists i args locals ret m1 m2,
    option_map sy_body (sym_at t f) = Some (SyFunc i args locals ret) /\
    (length locals <= 255)%nat /\
    (if (0 <? length locals)%nat then at_i a (IPushNullN (Z.of_nat (length locals))) m1 else a = m1) /\
    body m1 m2 /\ at_i m2 IReturn b.

(** [F f m]: function [f] is entered at [m] *)
Variable F : nat -> Z -> Prop.

Fixpoint lay_stmt (T : bool -> Z -> Prop) (s : tstmt) (a b : Z) (p : list (bool * Z)) : Prop :=
  match s with
  | TSCall _ f args => lay_call f args a b /\ p = []
  | TSBlock _ ss => lay_stmts (map (lay_stmt T) ss) a b p
  | TSConst _ | TSUse _ => a = b /\ p = []
  | TSDecl _ r e => lay_assign DECLARE (TId r (tag_of e)) e a b /\ p = []
  | TSAsg _ op l r => lay_assign op l r a b /\ p = []
  | TSBad _ => False
  | TSProc _ f body =>
      p = [] /\ exists m, jmp a b m /\ F f m /\
        lay_fun (fun x y => exists q, lay_stmt anywhere body x y q) f m b
  | TSIf _ c x None =>
      exists m1 m2, lay c a m1 /\ jz m1 b m2 /\ lay_stmt T x m2 b p
  | TSIf _ c x (Some y) =>
      exists m1 m2 m3 m4 p1 p2, lay c a m1 /\ jz m1 m4 m2 /\ lay_stmt T x m2 m3 p1 /\ jmp m3 b m4 /\
        lay_stmt T y m4 b p2 /\ p = p1 ++ p2
  | TSWhile _ c body =>
      p = [] /\ exists m1 m2 m3 q, lay c a m1 /\ jz m1 b m2 /\
        lay_stmt (targets b a) body m2 m3 q /\ jmp m3 a b
  | TSFor _ init c step body =>
      p = [] /\ exists m0 m1 m2 m3 m4 q1 q2 q3,
        lay_stmt anywhere init a m0 q1 /\ lay c m0 m1 /\ jz m1 b m2 /\
        lay_stmt (targets b m3) body m2 m3 q2 /\ lay_stmt anywhere step m3 m4 q3 /\ jmp m4 m0 b
  | TSReturn _ (Some e) => p = [] /\ exists m, lay e a m /\ at_i m IReturnValue b
  | TSReturn _ None => p = [] /\ at_i a IReturn b
  | TSBreak _ => exists x, jmp a x b /\ T true x /\ p = [(true, b - 4)]
  | TSContinue _ => exists x, jmp a x b /\ T false x /\ p = [(false, b - 4)]
  end.
End Lay.

(** The functions a statement defines *)
Fixpoint bodies (s : tstmt) : list (nat * tstmt) :=
  match s with
  | TSBlock _ ss => flat_map bodies ss
  | TSProc _ f body => (f, body) :: bodies body
  | TSIf _ _ a None => bodies a
  | TSIf _ _ a (Some b) => bodies a ++ bodies b
  | TSWhile _ _ body => bodies body
  | TSFor _ init _ step body => bodies init ++ bodies body ++ bodies step
  | _ => []
  end.
