(** * What the standard library's functions are called, take and give

    One row per function: its name, the types of its parameters, whether it takes
    more arguments, the type it gives, and which of the library's functions it is
    (its place in [lib_functions] of StdBox.v, whose behaviour is C44). *)
From Verif Require Import Base Symbols Syntax Typing Props_Bind.
Local Open Scope nat_scope.

Record row := Row { r_name : text; r_args : list text; r_va : bool; r_ret : text; r_place : nat }.

(** What [use array("E") as A] promises *)
Definition array_api (A E : text) (primitive sortable : bool) : list row :=
  let t := text_of in
  let f suffix args ret place := Row (A ++ t suffix) args false ret place in
  [ Row A [] true A (if primitive then 1 else 0);
    f "_clear" [A] (t "void") 3;
    f "_resize" [A; t "int"] (t "void") 11;
    f "_resize_fill" [A; t "int"; E] (t "void") 12;
    f "_get" [A; t "int"] E 5;
    f "_get_index" [A; t "int"] E 5;
    f "_set" [A; t "int"; E] (t "void") 6;
    f "_set_index" [A; t "int"; E] (t "void") 6;
    f "_len" [A] (t "int") 2;
    f "_push" [A; E] (t "void") 4;
    f "_pop" [A] E 7;
    f "_shift" [A] E 8;
    f "_remove" [A; t "int"] (t "void") 9;
    f "_insert" [A; t "int"; E] (t "void") 10 ]%string
  ++ if sortable then [ f "_sort"%string [A] (t "void"%string) 13 ] else [].

(** The type a name stands for *)
Definition builtin_types : list (text * tag) :=
  [ (text_of "void", GVoid); (text_of "bool", GBool); (text_of "int", GInt); (text_of "float", GFloat);
    (text_of "str", GStr); (text_of "any", GAny) ].
Inductive names_type (t : tbl) (x : text) : tag -> Prop :=
| nt_builtin g : In (x, g) builtin_types -> names_type t x g
| nt_declared y : ~ In x (map fst builtin_types) -> first (a_type x) (tb_syms t) y -> names_type t x (GSym (sy_id y)).
(** ... and is more than mentioned *)
Definition usable (t : tbl) (x : text) (g : tag) : Prop :=
  names_type t x g /\ forall y fs, g = GSym (sy_id y) -> first (a_type x) (tb_syms t) y -> sy_body y <> SyStruct false fs.

(** The table with the functions of [rows] added, one after the other *)
Inductive adds (addr : nat -> nat) : tbl -> list row -> tbl -> Prop :=
| ad_none t : adds addr t [] t
| ad_row t r gs g l t' :
    Forall2 (names_type t) (r_args r) gs -> names_type t (r_ret r) g -> none (a_foreign (r_name r)) t ->
    adds addr (with_foreign t (r_name r) gs (r_va r) g (addr (r_place r))) l t' -> adds addr t (r :: l) t'.

(** What [Tiny_BindStandardDict] promises: dicts of anything, and dicts from texts
    to whole numbers *)
Definition dict_api : list row :=
  let t := text_of in
  let f suffix args ret place := Row (t suffix) (map t args) false (t ret) place in
  Row (t "dict"%string) [] true (t "dict"%string) 14 ::
  [ f "dict_put" ["dict"; "any"; "any"] "void" 15;
    f "dict_exists" ["dict"; "any"] "bool" 16;
    f "dict_get" ["dict"; "any"] "any" 17;
    f "dict_remove" ["dict"; "any"] "void" 18;
    f "dict_keys" ["dict"] "array_any" 20;
    f "dict_values" ["dict"] "array_any" 21;
    f "dict_clear" ["dict"] "void" 19;
    f "dict_get_index" ["dict"; "str"] "any" 17;
    f "dict_set_index" ["dict"; "str"; "any"] "void" 15 ]%string.
Definition dict_str_int_api : list row :=
  let t := text_of in
  let f suffix args ret place := Row (t suffix) (map t args) false (t ret) place in
  Row (t "dict_str_int"%string) [] true (t "dict_str_int"%string) 14 ::
  [ f "dict_str_int_put" ["dict_str_int"; "str"; "int"] "void" 15;
    f "dict_str_int_exists" ["dict_str_int"; "str"] "bool" 16;
    f "dict_str_int_get" ["dict_str_int"; "str"] "int" 17;
    f "dict_str_int_remove" ["dict_str_int"; "str"] "void" 18;
    f "dict_str_int_keys" ["dict_str_int"] "array_str" 20;
    f "dict_str_int_clear" ["dict_str_int"] "void" 19 ]%string.

(** ** Libraries as lists of what they bind *)
Inductive item :=
| ItType (name : text)                (* a type of its own *)
| ItConst (name : text) (z : Z)       (* a whole number *)
| ItMacro (name : text)
| ItFun (r : row).

Definition fun_item (name : string) (args : list string) (va : bool) (ret : string) (place : nat) : item :=
  ItFun (Row (text_of name) (map text_of args) va (text_of ret) place).

Definition io_library : list item :=
  ItType (text_of "file") ::
  [ fun_item "fopen" ["str"; "str"] false "file" 22;
    fun_item "fclose" ["file"] false "void" 23;
    fun_item "fread" ["file"; "int"] false "str" 24;
    fun_item "fwrite" ["file"; "str"] true "void" 25;
    fun_item "fseek" ["file"; "int"] false "void" 26;
    fun_item "fsize" ["file"] false "int" 27;
    fun_item "read_file" ["str"] false "str" 28;
    fun_item "write_file" ["str"; "str"] false "bool" 29;
    fun_item "input" [] true "str" 30;
    fun_item "printf" ["str"] true "void" 31 ]%string.
Definition i64_library : list item :=
  ItType (text_of "i64") ::
  [ fun_item "int_to_i64" ["int"] false "i64" 32;
    fun_item "i64_add_many" ["i64"] true "i64" 33;
    fun_item "i64_mul_many" ["i64"] true "i64" 34;
    fun_item "i64_to_string" ["i64"] false "str" 35 ]%string.
Definition standard_library : list item :=
  ItConst (text_of "INT_MAX") (2^31 - 1) ::
  [ fun_item "strlen" ["str"] false "int" 36;
    fun_item "stridx" ["str"; "int"] false "int" 37;
    fun_item "sget" ["str"; "int"] false "int" 37;
    fun_item "strchr" ["str"; "int"] false "int" 38;
    fun_item "strcat" ["str"; "str"] true "str" 39;
    fun_item "substr" ["str"; "int"; "int"] false "str" 40;
    fun_item "str_get_index" ["str"; "int"] false "int" 37;
    fun_item "ston" ["str"] false "float" 41;
    fun_item "str_to_int" ["str"] false "int" 42;
    fun_item "int_to_str" ["int"] false "str" 43;
    fun_item "ntos" [] true "str" 44;
    fun_item "stoi" ["str"; "int"] false "int" 42;
    fun_item "time" [] false "int" 45;
    fun_item "srand" ["int"] false "void" 46;
    fun_item "rand" [] false "int" 47;
    fun_item "floor" ["float"] false "float" 48;
    fun_item "ceil" ["float"] false "float" 49;
    fun_item "get_function_index" ["str"] false "any" 50;
    fun_item "call_function" ["any"] true "any" 51;
    ItMacro (text_of "delegate"%string);
    fun_item "exit" ["int"] false "void" 52;
    fun_item "bool_to_json" [] true "any" 53;
    fun_item "str_to_json" [] true "any" 53;
    fun_item "int_to_json" [] true "any" 53;
    fun_item "float_to_json" [] true "any" 53;
    fun_item "get_executing_line" [] true "any" 54;
    ItMacro (text_of "json"%string);
    fun_item "debug_break" [] true "any" 55 ]%string.

(** The name is not taken *)
Definition free (t : tbl) (i : item) : Prop :=
  match i with
  | ItType _ => True
  | ItConst name _ => none (a_value name) t
  | ItMacro name => none (a_macro name) t
  | ItFun r => none (a_foreign (r_name r)) t
  end.
