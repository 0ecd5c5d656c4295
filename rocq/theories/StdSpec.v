(** * What the string functions and printf promise *)
From Coq Require Import Decimal DecimalString.
From Verif Require Import Base Float64 Values ValuesSpec Heap Code VM.
Local Open Scope Z_scope.

(** Calling [fn] with [args] in thread [t] returns [v] in thread [t'], whatever
    calling back into the program would do. *)
Definition returns {H} (M : machine H) (fn : list value -> fprog H) (args : list value) (t : thread H) (v : value) (t' : thread H) : Prop :=
  forall callf, run_fprog M callf (fn args) t = Ok (v, t').
Definition aborts {H} (M : machine H) (fn : list value -> fprog H) (args : list value) (t : thread H) : Prop :=
  forall callf, run_fprog M callf (fn args) t = Abort.
Definition undefined {H} (M : machine H) (fn : list value -> fprog H) (args : list value) (t : thread H) : Prop :=
  forall callf, run_fprog M callf (fn args) t = UB.

(** [v] is a string with text [s]; a constant string ends at its first NUL, so
    its text has none. *)
Definition is_string (h : heap) (v : value) (s : text) : Prop :=
  text_of_value h v s /\ (nul_free s \/ exists id, v = VStr id).

(** The only effect of the call is one new string, under the thread's next
    object number. *)
Definition new_string {H} (t : thread H) (s : text) (v : value) (t' : thread H) : Prop :=
  v = VStr (t_next t) /\ text_of_value (t_heap t') v s /\
  (forall id, id <> t_next t -> hget (t_heap t') id = hget (t_heap t) id) /\
  t_stk t' = t_stk t /\ t_globs t' = t_globs t /\ t_host t' = t_host t /\
  t_pc t' = t_pc t /\ t_fp t' = t_fp t /\ t_frames t' = t_frames t.

Definition decimal (z : Z) : text := text_of (NilZero.string_of_int (Z.to_int z)).

(** ** printf *)
Section Printf.
Variable fmt_f : Z -> text.                                  (* C's "%f" *)
Variable array_of : Z -> nat -> option (list value).         (* arrays of the library *)
Variable h : heap.

(** The [%q] form of a value; a bool has none, a string ends at its first NUL. *)
Inductive shown : value -> text -> Prop :=
| sh_null : shown VNull (text_of "<null>")
| sh_int i : shown (VInt i) (decimal i)
| sh_float b : shown (VFloat b) (fmt_f b)
| sh_bool b : shown (VBool b) []
| sh_string v s tail : text_of_value h v (s ++ tail) -> nul_free s -> tail = [] \/ (exists r, tail = "000"%char :: r) -> shown v (text_of """" ++ s ++ text_of """")
| sh_struct id m fs o : hget h id = Some (mkObj id m (BStruct fs)) -> shown_list true fs o ->
    shown (VStruct id) (text_of "struct {" ++ o ++ text_of "}")
| sh_array id m a p vs o : hget h id = Some (mkObj id m (BNative a p)) -> array_of a p = Some vs -> shown_list true vs o ->
    shown (VNative id) (text_of "[" ++ o ++ text_of "]")
with shown_list : bool -> list value -> text -> Prop :=
| shl_nil first : shown_list first [] []
| shl_cons (first : bool) v vs s o : shown v s -> shown_list false vs o ->
    shown_list first (v :: vs) ((if first then [] else text_of ", ") ++ s ++ o).

(** What a format and its arguments print; surplus arguments are ignored. *)
Inductive rendered : text -> list value -> text -> Prop :=
| rd_end args : rendered [] args []
| rd_char c f args o : c <> "%"%char -> c <> "000"%char -> rendered f args o -> rendered (c :: f) args (c :: o)
| rd_int i f args o : rendered f args o -> rendered ("%" :: "i" :: f)%char (VInt i :: args) (decimal i ++ o)
| rd_float b f args o : rendered f args o -> rendered ("%" :: "f" :: f)%char (VFloat b :: args) (fmt_f b ++ o)
| rd_string v s tail f args o : text_of_value h v (s ++ tail) -> nul_free s -> tail = [] \/ (exists r, tail = "000"%char :: r) ->
    rendered f args o -> rendered ("%" :: "s" :: f)%char (v :: args) (s ++ o)
| rd_chr c i f args o : Z.of_nat (nat_of_ascii c) = i mod 256 -> rendered f args o ->
    rendered ("%" :: "c" :: f)%char (VInt i :: args) (c :: o)
| rd_quoted v s f args o : shown v s -> rendered f args o -> rendered ("%" :: "q" :: f)%char (v :: args) (s ++ o)
(* the 64 bits of a float read as an integer, those of an integer as a float *)
| rd_int_bits b i f args o : 0 <= b < 2^64 -> - 2^63 <= i < 2^63 -> i mod 2^64 = b -> rendered f args o ->
    rendered ("%" :: "i" :: f)%char (VFloat b :: args) (decimal i ++ o)
| rd_float_bits i f args o : rendered f args o -> rendered ("%" :: "f" :: f)%char (VInt i :: args) (fmt_f (i mod 2^64) ++ o)
(* an unknown specifier takes its argument and prints a complaint; so does [%%], after the [%] *)
| rd_unknown c v f args o : ~ In c ["i"; "f"; "s"; "c"; "q"; "%"; "000"]%char -> rendered f args o ->
    rendered ("%" :: c :: f)%char (v :: args)
      (["010"%char] ++ text_of "Invalid format specifier '" ++ [c] ++ text_of "'" ++ ["010"%char] ++ o)
| rd_percent v f args o : rendered f args o ->
    rendered ("%" :: "%" :: f)%char (v :: args)
      (text_of "%" ++ ["010"%char] ++ text_of "Invalid format specifier '%'" ++ ["010"%char] ++ o)
(* the format ends at its first NUL *)
| rd_nul f args : rendered ("000" :: f)%char args [].
End Printf.

Scheme shown_ind2 := Minimality for shown Sort Prop
  with shown_list_ind2 := Minimality for shown_list Sort Prop.
Combined Scheme shown_both from shown_ind2, shown_list_ind2.
