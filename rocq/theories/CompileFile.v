(** * Compiling a file: /repo/tiny/src/tiny.c:4083-4114

    The file is read as in Files.v; allocation does not fail. *)
From Verif Require Import Base Lexer Values Code Syntax Symbols Resolve Compile ErrFmt Files.

(** tiny.c:4091: the message for a file that cannot be opened, printed into the
    result's buffer *)
Definition open_error (buf name : text) : outcome text :=
  match snprintf buf 0 (length buf) (text_of "Error: Unable to open file '" ++ name ++ text_of "' for reading" ++ ["010"%char]) with
  | Ok (b, _) => Ok b | Abort => Abort | UB => UB | Fuel => Fuel
  end.

(** What Tiny_CompileFile does with the file; [NotOpened] carries the message
    buffer, and the state is untouched *)
Inductive file_result := NotOpened (msg : text) | Compiled (r : cres kst (list tstmt)) | FileUndefined.

(** tiny.c:4083-4114 [Tiny_CompileFile]; [buf] is what the message buffer (1024
    bytes) holds.  Tiny_CompileString gets a C string: it sees the bytes up to the
    first NUL *)
Definition compile_file (fuel : nat) (mods : text -> macro) (d : disk) (buf name : text) (s : kst) : file_result :=
  match prepare d name SRead with
  | Ok None => match open_error buf name with Ok b => NotOpened b | _ => FileUndefined end
  | Ok (Some d') => Compiled (compile_string fuel mods (Some name) (until_nul (contents d' name)) s)
  | _ => FileUndefined
  end.
