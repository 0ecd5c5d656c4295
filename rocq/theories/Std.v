(** * The standard library's string functions and printf:
    /repo/tiny/src/std.c:45-74, 452-541, 585-697

    Each function is an [fprog] (VM.v), so it runs under the VM's CALLF.  A
    string in memory is its characters followed by a NUL; any other access is
    out of bounds.  Allocation never fails and lengths fit size_t. *)
From Coq Require Import Decimal DecimalString.
From Verif Require Import Base Float64 Values Lexer Heap Code VM.
Local Open Scope Z_scope.

Definition nul : ascii := "000".

(** [s[i]] *)
Definition byte (s : text) (i : nat) : outcome ascii :=
  match nth_error s i with
  | Some c => Ok c
  | None => if (i =? length s)%nat then Ok nul else UB
  end.

(** strlen *)
Fixpoint strlen_from (fuel : nat) (s : text) (i : nat) : outcome nat :=
  match fuel with
  | O => UB
  | S f => match byte s i with
           | Ok c => if Ascii.eqb c nul then Ok i else strlen_from f s (S i)
           | _ => UB
           end
  end.
Definition c_strlen (s : text) : outcome nat := strlen_from (S (length s)) s 0.

(** memchr(s, c, n): the offset of the first match *)
Fixpoint memchr_from (n : nat) (s : text) (i : nat) (c : ascii) : outcome (option nat) :=
  match n with
  | O => Ok None
  | S n' => match byte s i with
            | Ok d => if Ascii.eqb d c then Ok (Some i) else memchr_from n' s (S i) c
            | _ => UB
            end
  end.

(** A fresh allocation: cells not yet written *)
Definition buffer := list (option ascii).
Definition put (b : buffer) (i : nat) (c : ascii) : outcome buffer :=
  if (i <? length b)%nat then Ok (update b i (Some c)) else UB.

(** memcpy(b + i, s + j, n) *)
Fixpoint copy (n : nat) (b : buffer) (i : nat) (s : text) (j : nat) : outcome buffer :=
  match n with
  | O => Ok b
  | S n' => match byte s j with
            | Ok c => match put b i c with
                      | Ok b' => copy n' b' (S i) s (S j)
                      | _ => UB
                      end
            | _ => UB
            end
  end.

(** The characters of a buffer handed over as a string of length [n]: written,
    and followed by a NUL *)
Fixpoint taken (b : buffer) (n : nat) : outcome text :=
  match n, b with
  | O, Some c :: _ => if Ascii.eqb c nul then Ok [] else UB
  | S n', Some c :: b' => match taken b' n' with Ok s => Ok (c :: s) | _ => UB end
  | _, _ => UB
  end.

Section Std.
Context {H : Type}.

Definition attempt {A} (o : outcome A) (k : A -> fprog H) : fprog H :=
  match o with Ok a => k a | Abort => FAbort | _ => FUB end.

(** tiny.c:167-179 [Tiny_ToString] and [Tiny_StringLen]: the characters in
    memory and the length; NULL and 0 for other values *)
Definition with_string (v : value) (k : option text -> nat -> fprog H) : fprog H :=
  match v with
  | VCStr s => attempt (c_strlen s) (k (Some s))
  | VStr _ => FObj v (fun b => match b with BStr s => k (Some s) (length s) | _ => FUB end)
  | _ => k None 0%nat
  end.

(** The same where only the pointer is used *)
Definition with_chars (v : value) (k : option text -> fprog H) : fprog H :=
  match v with
  | VCStr s => k (Some s)
  | VStr _ => FObj v (fun b => match b with BStr s => k (Some s) | _ => FUB end)
  | _ => k None
  end.

(** tiny.h:222-225 [Tiny_ToInt] *)
Definition to_int (v : value) : Z := match v with VInt i => i | _ => 0 end.
(** (int)Tiny_ToNumber(v), tiny.h:232-237: for an int the way through double
    and back is exact, and undefined outside the range of int *)
Definition number_to_int (v : value) : outcome Z :=
  match v with
  | VInt i => if in_int32 i then Ok i else UB
  | VFloat b => match f_trunc b with Some i => if in_int32 i then Ok i else UB | None => UB end
  | _ => Ok 0
  end.
(** tiny.c:356 [Tiny_NewInt(int)] *)
Definition new_int (z : Z) : value := VInt (wrap32 z).

Definition arg (args : list value) (i : nat) (k : value -> fprog H) : fprog H :=
  match nth_error args i with Some v => k v | None => FUB end.

(** std.c:45-49 [Strlen] *)
Definition std_strlen (args : list value) : fprog H :=
  arg args 0 (fun v =>
  with_chars v (fun o =>
  match o with
  | Some s => attempt (c_strlen s) (fun n => FRet (new_int (Z.of_nat n)))
  | None => FUB
  end)).

(** std.c:51-60 [Stridx]; [i < len] compares as size_t, [i >= 0] was tested *)
Definition std_stridx (args : list value) : fprog H :=
  arg args 0 (fun v =>
  with_chars v (fun o =>
  match o with
  | Some s =>
      attempt (c_strlen s) (fun len =>
      arg args 1 (fun iv =>
      let i := wrap32 (to_int iv) in
      if (0 <=? i) && (i <? Z.of_nat len)
      then attempt (byte s (Z.to_nat i)) (fun c => FRet (new_int (char_val c)))
      else FAbort))
  | None => FUB
  end)).

(** std.c:62-74 [Strchr]; [char c = Tiny_ToInt(..)] keeps the low byte *)
Definition std_strchr (args : list value) : fprog H :=
  arg args 0 (fun v =>
  with_string v (fun o len =>
  match o with
  | Some s =>
      arg args 1 (fun cv =>
      attempt (memchr_from len s 0 (ascii_of_nat (Z.to_nat (to_int cv mod 256)))) (fun r =>
      FRet (new_int (match r with Some i => Z.of_nat i | None => -1 end))))
  | None => FUB
  end)).

(** std.c:455-457 and 462-467: the arguments' characters and lengths *)
Fixpoint gather (args : list value) (k : list (option text * nat) -> fprog H) : fprog H :=
  match args with
  | [] => k []
  | v :: args' => with_string v (fun o n => gather args' (fun l => k ((o, n) :: l)))
  end.
Fixpoint copy_all (l : list (option text * nat)) (b : buffer) (i : nat) : outcome (buffer * nat) :=
  match l with
  | [] => Ok (b, i)
  | (Some s, n) :: l' => match copy n b i s 0 with Ok b' => copy_all l' b' (i + n)%nat | _ => UB end
  | (None, _) :: _ => UB                      (* memcpy from NULL *)
  end.
Definition total (l : list (option text * nat)) : nat := fold_right (fun x n => (snd x + n)%nat) 0%nat l.

(** std.c:452-472 [Strcat] *)
Definition std_strcat (args : list value) : fprog H :=
  gather args (fun l =>
  let n := total l in
  attempt (copy_all l (repeat None (n + 1)) 0) (fun r =>
  attempt (put (fst r) n nul) (fun b =>
  attempt (taken b n) (fun s => FNewStr s FRet)))).

(** std.c:474-505 [Lib_Substr] *)
Definition std_substr (args : list value) : fprog H :=
  if negb (length args =? 3)%nat then FAbort else
  arg args 0 (fun v =>
  with_string v (fun o sLen =>
  arg args 1 (fun a1 => arg args 2 (fun a2 =>
  attempt (number_to_int a1) (fun start =>
  attempt (number_to_int a2) (fun end0 =>
  let fin := if end0 =? -1 then wrap32 (Z.of_nat sLen) else end0 in
  if negb ((0 <=? start) && (start <=? fin)) then FAbort
  else if start =? fin then FRet (VCStr [])
  else if negb (fin <=? Z.of_nat sLen) then FAbort
  else match o with
       | Some s =>
           let n := Z.to_nat (fin - start) in
           attempt (copy n (repeat None (n + 1)) 0 s (Z.to_nat start)) (fun b =>
           attempt (put b n nul) (fun b' =>
           attempt (taken b' n) (fun r => FNewStr r FRet)))
       | None => FUB
       end)))))).

(** strtol: spaces, a sign, an optional 0x for base 16 (or 0), digits below the
    base; saturating; 0 for an impossible base *)
Definition digit_of (c : ascii) : Z :=
  let n := Z.of_nat (nat_of_ascii c) in
  if (48 <=? n) && (n <=? 57) then n - 48
  else if (65 <=? n) && (n <=? 90) then n - 55
  else if (97 <=? n) && (n <=? 122) then n - 87 else 99.
Fixpoint digits (base acc : Z) (s : text) : Z :=
  match s with
  | [] => acc
  | c :: s' => if digit_of c <? base then digits base (acc * base + digit_of c) s' else acc
  end.
Fixpoint skip_space (s : text) : text :=
  match s with
  | [] => []
  | c :: s' => if is_space c then skip_space s' else s
  end.
Definition drop_0x (s : text) : option text :=
  match s with
  | a :: x :: d :: r =>
      if Ascii.eqb a "0" && (Ascii.eqb x "x" || Ascii.eqb x "X") && (digit_of d <? 16) then Some (d :: r) else None
  | _ => None
  end.
Definition strtol_mag (base : Z) (s : text) : Z :=
  if (base =? 0) || (base =? 16) then
    match drop_0x s with
    | Some r => digits 16 0 r
    | None => if base =? 16 then digits 16 0 s
              else match s with
                   | c :: _ => if Ascii.eqb c "0" then digits 8 0 s else digits 10 0 s
                   | [] => 0
                   end
    end
  else digits base 0 s.
Definition strtol (s : text) (base : Z) : Z :=
  if (base <? 0) || (base =? 1) || (36 <? base) then 0
  else
    let s1 := skip_space (until_nul s) in
    match s1 with
    | c :: r =>
        if Ascii.eqb c "-" then Z.max (- strtol_mag base r) (- 2^63)
        else if Ascii.eqb c "+" then Z.min (strtol_mag base r) (2^63 - 1)
        else Z.min (strtol_mag base s1) (2^63 - 1)
    | [] => 0
    end.

(** std.c:514-521 [Lib_Stoi] *)
Definition std_stoi (args : list value) : fprog H :=
  arg args 0 (fun v =>
  with_chars v (fun o =>
  let go base := match o with
                 | Some s => FRet (new_int (strtol s base))
                 | None => FUB
                 end in
  if (1 <? length args)%nat then arg args 1 (fun b => go (wrap32 (to_int b))) else go 10)).

(** printf("%lld") *)
Definition dec_text (z : Z) : text := text_of (NilZero.string_of_int (Z.to_int z)).

(** std.c:533-541 [Lib_IntToStr]; at most 20 characters, so the buffer of 32
    never cuts them *)
Definition std_int_to_str (args : list value) : fprog H :=
  arg args 0 (fun v => FNewStr (firstn 31 (dec_text (to_int v))) FRet).

(** ** printf.  [emit] writes to stdout; ["%f"] and ["%p"] are parameters, so
    is what the library's arrays hold ([None] = not the array property). *)
Variable emit : text -> H -> H.
Variable fmt_f : Z -> text.
Variable native_text : H -> Z -> nat -> text.
Variable elements : H -> Z -> nat -> option (list value).

Definition say (s : text) (k : fprog H) : fprog H := FHost (fun w => FSetHost (emit s w) k).
Definition quoted (repr : bool) (s : text) : text :=
  if repr then [ch_dquote] ++ s ++ [ch_dquote] else s.

Fixpoint print_list (p : value -> fprog H -> fprog H) (first : bool) (l : list value) (k : fprog H) : fprog H :=
  match l with
  | [] => k
  | v :: l' => (if first then fun x => x else say (text_of ", ")) (p v (print_list p false l' k))
  end.

(** std.c:585-652 [Print]; the recursion on a cyclic value does not end (it
    overflows the C stack: [FUB] when the fuel is used up).  A bool has no case
    in the switch. *)
Fixpoint print (fuel : nat) (v : value) (repr : bool) (k : fprog H) : fprog H :=
  match fuel with
  | O => FUB
  | S f =>
      match v with
      | VNull => say (text_of "<null>") k
      | VBool _ => k
      | VInt i => say (dec_text i) k
      | VFloat b => say (fmt_f b) k
      | VCStr s => say (quoted repr (until_nul s)) k
      | VStr _ => FObj v (fun b => match b with BStr s => say (quoted repr (until_nul s)) k | _ => FUB end)
      | VLight a => FHost (fun w => say (native_text w a 0) k)
      | VNative _ =>
          FObj v (fun b => match b with
                           | BNative a p =>
                               FHost (fun w =>
                               match (if repr then elements w a p else None) with
                               | Some l => say (text_of "[") (print_list (fun x => print f x true) true l (say (text_of "]") k))
                               | None => say (native_text w a p) k
                               end)
                           | _ => FUB
                           end)
      | VStruct _ =>
          FObj v (fun b => match b with
                           | BStruct fs => say (text_of "struct {") (print_list (fun x => print f x true) true fs (say (text_of "}") k))
                           | _ => FUB
                           end)
      end
  end.

(** std.c:665-688: one specifier; [args[arg].i] of a value that is no int reads
    the bytes of the union, defined here for floats only *)
Definition raw_int (v : value) : outcome Z :=
  match v with
  | VInt i => Ok i
  | VFloat b => Ok (to_signed64 b)
  | _ => UB
  end.
Definition spec_out (fuel : nat) (c : ascii) (v : value) (k : fprog H) : fprog H :=
  if Ascii.eqb c "i" then attempt (raw_int v) (fun i => say (dec_text i) k)
  else if Ascii.eqb c "f" then match v with VFloat b => say (fmt_f b) k | VInt i => say (fmt_f (i mod 2^64)) k | _ => FUB end
  else if Ascii.eqb c "s" then
    with_string v (fun o n => match o with Some s => say (until_nul (firstn n s)) k | None => FUB end)
  else if Ascii.eqb c "c" then attempt (raw_int v) (fun i => say [ascii_of_nat (Z.to_nat (i mod 256))] k)
  else if Ascii.eqb c "q" then print fuel v true k
  else
    (if Ascii.eqb c "%" then say (text_of "%") else fun x => x)
    (say ([ch_nl] ++ text_of "Invalid format specifier '" ++ [c] ++ text_of "'" ++ [ch_nl]) k).

(** std.c:654-697 [Lib_Printf]; [fmt] is the rest of the format string *)
Fixpoint printf_from (fuel : nat) (fmt : text) (args : list value) : fprog H :=
  match fmt with
  | [] => FRet VNull
  | c :: fmt' =>
      if Ascii.eqb c nul then FRet VNull
      else if Ascii.eqb c "%" then
        match args with
        | [] => FAbort                              (* exit(1) *)
        | v :: args' =>
            match fmt' with
            | [] => spec_out fuel nul v FUB          (* ++fmt passes the terminator *)
            | d :: fmt'' => spec_out fuel d v (printf_from fuel fmt'' args')
            end
        end
      else say [c] (printf_from fuel fmt' args)
  end.
Definition std_printf (fuel : nat) (args : list value) : fprog H :=
  match args with
  | v :: args' => with_chars v (fun o => match o with Some s => printf_from fuel s args' | None => FUB end)
  | [] => FUB
  end.
End Std.
