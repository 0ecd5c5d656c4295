(** * The library's file functions: /repo/tiny/src/std.c:76-181

    The C streams below them are modelled for regular files of one process, on a
    disk where reading and writing never fail: a file is the list of its bytes.
    A name may be refused for writing ([dk_can]); every file that exists can be
    read.  Modes with [+] (reading and writing through one stream), and opening a
    file that another stream is writing (what is then seen depends on the
    buffering), count as undefined here.  Text mode is binary mode. *)
From Verif Require Import Base Float64 Values Lexer Heap Code VM Std I64.
Local Open Scope Z_scope.

Inductive smode := SRead | SWrite | SAppend.
Record stream := mkStream { st_name : text; st_mode : smode; st_pos : nat }.
Record disk := mkDisk {
  dk_file : text -> option text;
  dk_can : text -> bool;
  dk_open : list (Z * stream);         (* the addresses of the FILEs that are open *)
  dk_next : Z
}.

Definition stream_at (d : disk) (a : Z) : option stream :=
  match find (fun x => fst x =? a) (dk_open d) with Some x => Some (snd x) | None => None end.
Definition set_file (d : disk) (name c : text) : disk :=
  mkDisk (fun n => if text_eqb n name then Some c else dk_file d n) (dk_can d) (dk_open d) (dk_next d).
Definition set_open (d : disk) l : disk := mkDisk (dk_file d) (dk_can d) l (dk_next d).
Definition set_stream (d : disk) (a : Z) (st : stream) : disk :=
  set_open d (map (fun x => if fst x =? a then (a, st) else x) (dk_open d)).
Definition at_pos (st : stream) (p : nat) : stream := mkStream (st_name st) (st_mode st) p.
Definition reading (m : smode) : bool := match m with SRead => true | _ => false end.
(** Is the file open in a way that excludes opening it with mode [m]? *)
Definition busy (d : disk) (name : text) (m : smode) : bool :=
  existsb (fun x => text_eqb (st_name (snd x)) name && negb (reading m && reading (st_mode (snd x)))) (dk_open d).
Definition contents (d : disk) (name : text) : text := match dk_file d name with Some c => c | None => [] end.

(** The mode argument of fopen; glibc refuses modes that begin otherwise *)
Definition mode_of (s : text) : outcome (option smode) :=
  if existsb (Ascii.eqb "+"%char) s then UB
  else match s with
       | "r"%char :: _ => Ok (Some SRead)
       | "w"%char :: _ => Ok (Some SWrite)
       | "a"%char :: _ => Ok (Some SAppend)
       | _ => Ok None
       end.
(** What opening does to the file; [None] = NULL *)
Definition prepare (d : disk) (name : text) (m : smode) : outcome (option disk) :=
  if busy d name m then UB
  else match m with
       | SRead => match dk_file d name with Some _ => Ok (Some d) | None => Ok None end
       | SWrite => if dk_can d name then Ok (Some (set_file d name [])) else Ok None
       | SAppend => if dk_can d name then Ok (Some (set_file d name (contents d name))) else Ok None
       end.
Definition add_stream (d : disk) (st : stream) : disk :=
  mkDisk (dk_file d) (dk_can d) ((dk_next d, st) :: dk_open d) (dk_next d + 1).
Definition without (d : disk) (a : Z) : disk := set_open d (filter (fun x => negb (fst x =? a)) (dk_open d)).

(** Bytes written at a position; a gap before it reads as NULs *)
Definition write_at (c : text) (p : nat) (s : text) : text :=
  firstn p c ++ repeat nul (p - length c) ++ s ++ skipn (p + length s) c.
(** fwrite of the bytes [s]: how many are written *)
Definition f_write (d : disk) (a : Z) (st : stream) (s : text) : nat * disk :=
  match st_mode st, s with
  | SRead, _ | _, [] => (0%nat, d)
  | SWrite, _ => (length s, set_stream (set_file d (st_name st) (write_at (contents d (st_name st)) (st_pos st) s)) a (at_pos st (st_pos st + length s)))
  | SAppend, _ => let c := contents d (st_name st) ++ s in
                  (length s, set_stream (set_file d (st_name st) c) a (at_pos st (length c)))
  end.
(** fread of [n] bytes *)
Definition f_read (d : disk) (st : stream) (n : nat) : text :=
  match st_mode st with SRead => firstn n (skipn (st_pos st) (contents d (st_name st))) | _ => [] end.

Section Files.
Context {H : Type} (get : H -> disk) (put_disk : disk -> H -> H) (file_prop : nat).

(** The characters of a string that a C function reads *)
Definition with_cstr (v : value) (k : text -> fprog H) : fprog H :=
  with_chars v (fun o => match o with Some s => k s | None => FUB end).
Definition with_stream (v : value) (k : H -> Z -> stream -> fprog H) : fprog H :=
  with_addr v (fun a => FHost (fun h => match stream_at (get h) a with Some st => k h a st | None => FUB end)).

(** std.c:82-91 [Lib_Fopen] *)
Definition std_fopen (args : list value) : fprog H :=
  arg args 0 (fun vn => with_cstr vn (fun name =>
  arg args 1 (fun vm => with_cstr vm (fun mode =>
  attempt (mode_of (until_nul mode)) (fun om =>
  match om with
  | None => FRet VNull
  | Some m =>
      FHost (fun h => attempt (prepare (get h) (until_nul name) m) (fun r =>
      match r with
      | None => FRet VNull
      | Some d => FSetHost (put_disk (add_stream d (mkStream (until_nul name) m 0)) h) (FNewNative (dk_next d) file_prop FRet)
      end))
  end))))).

(** std.c:93-101 [Lib_Fsize]: leaves the position at the start *)
Definition std_fsize (args : list value) : fprog H :=
  arg args 0 (fun v => with_stream v (fun h a st =>
  FSetHost (put_disk (set_stream (get h) a (at_pos st 0)) h) (FRet (new_int (Z.of_nat (length (contents (get h) (st_name st)))))))).

(** std.c:103-120 [Lib_Fread]: only the cell after the [num]th gets a NUL, so when
    fewer bytes are read the string handed over has no NUL after its last
    character; as in Std.v that counts as undefined *)
Definition std_fread (args : list value) : fprog H :=
  arg args 0 (fun v => with_stream v (fun h a st =>
  arg args 1 (fun vn => attempt (number_to_int vn) (fun num =>
  if num <? 0 then FUB
  else let n := Z.to_nat num in
       let s := f_read (get h) st n in
       FSetHost (put_disk (set_stream (get h) a (at_pos st (st_pos st + length s))) h)
         (attempt (taken (map Some s ++ repeat None (n - length s) ++ [Some nul]) (length s)) (fun r => FNewStr r FRet)))))).

(** std.c:122-129 [Lib_Fseek]; seeking before the start does nothing *)
Definition std_fseek (args : list value) : fprog H :=
  arg args 0 (fun v => with_stream v (fun h a st =>
  arg args 1 (fun vp => attempt (number_to_int vp) (fun pos =>
  if pos <? 0 then FRet VNull
  else FSetHost (put_disk (set_stream (get h) a (at_pos st (Z.to_nat pos))) h) (FRet VNull))))).

(** std.c:131-137 [Lib_Fwrite]; the string's NUL may be written too *)
Definition std_fwrite (args : list value) : fprog H :=
  arg args 0 (fun v => with_stream v (fun h a st =>
  arg args 1 (fun vs => with_cstr vs (fun s =>
  attempt (if (length args =? 3)%nat then match nth_error args 2 with Some vn => number_to_int vn | None => UB end
           else match c_strlen s with Ok n => Ok (Z.of_nat n) | _ => UB end) (fun num =>
  if (num <? 0) || (Z.of_nat (length s) + 1 <? num) then FUB
  else let '(n, d) := f_write (get h) a st (firstn (Z.to_nat num) (s ++ [nul])) in
       FSetHost (put_disk d h) (FRet (new_int (Z.of_nat n)))))))).

(** std.c:139-145 [Lib_Fclose] *)
Definition std_fclose (args : list value) : fprog H :=
  arg args 0 (fun v => with_stream v (fun h a _ => FSetHost (put_disk (without (get h) a) h) (FRet VNull))).

(** std.c:147-167 [Lib_ReadFile] *)
Definition std_read_file (args : list value) : fprog H :=
  arg args 0 (fun vn => with_cstr vn (fun name =>
  FHost (fun h => attempt (prepare (get h) (until_nul name) SRead) (fun r =>
  match r with None => FRet VNull | Some d => FNewStr (contents d (until_nul name)) FRet end)))).

(** std.c:169-181 [Lib_WriteFile] *)
Definition std_write_file (args : list value) : fprog H :=
  arg args 0 (fun vn => with_cstr vn (fun name =>
  FHost (fun h => attempt (prepare (get h) (until_nul name) SWrite) (fun r =>
  match r with
  | None => FRet (VBool false)
  | Some d =>
      arg args 1 (fun vs => with_cstr vs (fun s =>
      attempt (c_strlen s) (fun n => FSetHost (put_disk (set_file d (until_nul name) (firstn n s)) h) (FRet (VBool true)))))
  end)))).
End Files.
