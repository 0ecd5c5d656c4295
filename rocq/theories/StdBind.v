(** * What the standard library binds: /repo/tiny/src/std.c:851-997, 1175-1228

    The library's array and dict functions are named by their place in
    [lib_functions] of StdBox.v, at the address [addr] gives it. *)
From Verif Require Import Base Token Lexer Values Strings Code FileLine Syntax Symbols Parser Resolve Compile Host.
Local Open Scope nat_scope.
Local Open Scope cm_scope.

(** Places in [lib_functions] *)
Definition f_create := 0. Definition f_create_primitive := 1. Definition f_len := 2. Definition f_clear := 3.
Definition f_push := 4. Definition f_get := 5. Definition f_set := 6. Definition f_pop := 7. Definition f_shift := 8.
Definition f_remove := 9. Definition f_insert := 10. Definition f_resize := 11. Definition f_resize_fill := 12.
Definition f_sort := 13. Definition f_dict := 14. Definition f_put := 15. Definition f_exists := 16.
Definition f_dict_get := 17. Definition f_dict_remove := 18. Definition f_dict_clear := 19. Definition f_keys := 20.
Definition f_values := 21.

(** tiny.c:4395-4404 [Tiny_FindTypeSymbol]; a structure that is only mentioned is
    not found *)
Definition find_type_symbol (t : tbl) (name : text) : option tag :=
  match prim_tag name with
  | Some g => Some g
  | None =>
      match find (is_type_named name) (tb_syms t) with
      | Some (mkSym _ _ (SyStruct false _)) => None
      | Some s => Some (GSym (sy_id s))
      | None => None
      end
  end.

(** [snprintf(sigbuf, 512, "..%s..", ...)]: at most 511 characters *)
Definition sigbuf (parts : list text) : text := firstn 511 (concat parts).

(** std.c:892-934: the signatures, in order, with the functions they bind.  [A] is
    the name after [as], [E] the argument. *)
Definition array_sigs (A E : text) (primitive is_int : bool) : list (text * nat) :=
  [ (sigbuf [A; text_of "(...): "; A], if primitive then f_create_primitive else f_create);
    (sigbuf [A; text_of "_clear("; A; text_of "): void"], f_clear);
    (sigbuf [A; text_of "_resize("; A; text_of ", int): void"], f_resize);
    (sigbuf [A; text_of "_resize_fill("; A; text_of ", int, "; E; text_of "): void"], f_resize_fill);
    (sigbuf [A; text_of "_get("; A; text_of ", int): "; E], f_get);
    (sigbuf [A; text_of "_get_index("; A; text_of ", int): "; E], f_get);
    (sigbuf [A; text_of "_set("; A; text_of ", int, "; E; text_of "): void"], f_set);
    (sigbuf [A; text_of "_set_index("; A; text_of ", int, "; E; text_of "): void"], f_set);
    (sigbuf [A; text_of "_len("; A; text_of "): int"], f_len);
    (sigbuf [A; text_of "_push("; A; text_of ", "; E; text_of "): void"], f_push);
    (sigbuf [A; text_of "_pop("; A; text_of "): "; E], f_pop);
    (sigbuf [A; text_of "_shift("; A; text_of "): "; E], f_shift);
    (sigbuf [A; text_of "_remove("; A; text_of ", int): void"], f_remove);
    (sigbuf [A; text_of "_insert("; A; text_of ", int, "; E; text_of "): void"], f_insert) ]
  ++ if is_int then [ (sigbuf [A; text_of "_sort("; A; text_of "): void"], f_sort) ] else [].

Section Bind.
Variable addr : nat -> nat.

(** One call of [Tiny_BindFunction] after the other *)
Fixpoint bind_all (n : nat) (l : list (text * nat)) : km unit :=
  match l with
  | [] => cret tt
  | (sig, f) :: l' => host n (HFun sig (addr f)) ;;; bind_all n l'
  end.

(** std.c:851-938 [ArrayMacroFunction]; [false] is TINY_MACRO_ERROR *)
Definition array_macro (n : nat) : macro :=
  fun args asName s =>
    match args, asName with
    | [E], Some A =>
        match find_type_symbol (k_tbl s) A with
        | Some _ => COk true s
        | None =>
            match find_type_symbol (k_tbl s) E with
            | None => COk false s
            | Some g =>
                (host n (HType A) ;;;
                 bind_all n (array_sigs A E (match g with GBool | GInt | GFloat => true | _ => false end)
                                            (match g with GInt => true | _ => false end)) ;;;
                 cret true) s
            end
        end
    | _, _ => COk false s
    end.

(** std.c:940-942 [Tiny_BindStandardArray] *)
Definition bind_standard_array (n : nat) : km unit := host n (HMacro (text_of "array")).

(** std.c:944-971 [Tiny_BindStandardDict] *)
Definition dict_sigs : list (text * nat) :=
  map (fun p => (text_of (fst p), snd p))
  [ ("dict(...): dict", f_dict); ("dict_put(dict, any, any): void", f_put);
    ("dict_exists(dict, any): bool", f_exists); ("dict_get(dict, any): any", f_dict_get);
    ("dict_remove(dict, any): void", f_dict_remove); ("dict_keys(dict): array_any", f_keys);
    ("dict_values(dict): array_any", f_values); ("dict_clear(dict): void", f_dict_clear);
    ("dict_get_index(dict, str): any", f_dict_get); ("dict_set_index(dict, str, any): void", f_put) ]%string.
Definition dict_str_int_sigs : list (text * nat) :=
  map (fun p => (text_of (fst p), snd p))
  [ ("dict_str_int(...): dict_str_int", f_dict); ("dict_str_int_put(dict_str_int, str, int): void", f_put);
    ("dict_str_int_exists(dict_str_int, str): bool", f_exists); ("dict_str_int_get(dict_str_int, str): int", f_dict_get);
    ("dict_str_int_remove(dict_str_int, str): void", f_dict_remove); ("dict_str_int_keys(dict_str_int): array_str", f_keys);
    ("dict_str_int_clear(dict_str_int): void", f_dict_clear) ]%string.
Definition bind_standard_dict (n : nat) : km unit :=
  host n (HType (text_of "array_any")) ;;; host n (HType (text_of "array_str")) ;;; host n (HType (text_of "dict")) ;;;
  bind_all n dict_sigs ;;;
  host n (HType (text_of "dict_str_int")) ;;;
  bind_all n dict_str_int_sigs.

(** The other functions, by their place after those of [lib_functions] *)
Definition f_fopen := 22. Definition f_fclose := 23. Definition f_fread := 24. Definition f_fwrite := 25.
Definition f_fseek := 26. Definition f_fsize := 27. Definition f_read_file := 28. Definition f_write_file := 29.
Definition f_input := 30. Definition f_printf := 31. Definition f_int_to_i64 := 32. Definition f_i64_add_many := 33.
Definition f_i64_mul_many := 34. Definition f_i64_to_string := 35. Definition f_strlen := 36. Definition f_stridx := 37.
Definition f_strchr := 38. Definition f_strcat := 39. Definition f_substr := 40. Definition f_ston := 41.
Definition f_stoi := 42. Definition f_int_to_str := 43. Definition f_ntos := 44. Definition f_time := 45.
Definition f_srand := 46. Definition f_rand := 47. Definition f_floor := 48. Definition f_ceil := 49.
Definition f_get_function_index := 50. Definition f_call_function := 51. Definition f_exit := 52.
Definition f_primitive_to_json := 53. Definition f_get_executing_line := 54. Definition f_debug_break := 55.

Definition funs (l : list (string * nat)) : list (text * nat) := map (fun p => (text_of (fst p), snd p)) l.

(** std.c:973-988 [Tiny_BindStandardIO] *)
Definition bind_standard_io (n : nat) : km unit :=
  host n (HType (text_of "file")) ;;;
  bind_all n (funs
    [ ("fopen(str, str): file", f_fopen); ("fclose(file): void", f_fclose); ("fread(file, int): str", f_fread);
      ("fwrite(file, str, ...): void", f_fwrite); ("fseek(file, int): void", f_fseek); ("fsize(file): int", f_fsize);
      ("read_file(str): str", f_read_file); ("write_file(str, str): bool", f_write_file);
      ("input(...): str", f_input); ("printf(str, ...): void", f_printf) ]%string).

(** std.c:990-997 [Tiny_BindI64] *)
Definition bind_i64 (n : nat) : km unit :=
  host n (HType (text_of "i64")) ;;;
  bind_all n (funs
    [ ("int_to_i64(int): i64", f_int_to_i64); ("i64_add_many(i64, ...): i64", f_i64_add_many);
      ("i64_mul_many(i64, ...): i64", f_i64_mul_many); ("i64_to_string(i64): str", f_i64_to_string) ]%string).

(** std.c:1175-1228 [Tiny_BindStandardLib], without the lines for Windows *)
Definition bind_standard_lib (n : nat) : km unit :=
  host n (HConst (text_of "INT_MAX") (HInt 2147483647)) ;;;
  bind_all n (funs
    [ ("strlen(str): int", f_strlen); ("stridx(str, int): int", f_stridx); ("sget(str, int): int", f_stridx);
      ("strchr(str, int): int", f_strchr); ("strcat(str, str, ...): str", f_strcat);
      ("substr(str, int, int): str", f_substr); ("str_get_index(str, int): int", f_stridx);
      ("ston(str): float", f_ston); ("str_to_int(str): int", f_stoi); ("int_to_str(int): str", f_int_to_str);
      ("ntos(...): str", f_ntos); ("stoi(str, int): int", f_stoi); ("time(): int", f_time);
      ("srand(int): void", f_srand); ("rand(): int", f_rand); ("floor(float): float", f_floor);
      ("ceil(float): float", f_ceil); ("get_function_index(str): any", f_get_function_index);
      ("call_function(any, ...): any", f_call_function) ]%string) ;;;
  host n (HMacro (text_of "delegate")) ;;;
  bind_all n (funs
    [ ("exit(int): void", f_exit); ("bool_to_json", f_primitive_to_json); ("str_to_json", f_primitive_to_json);
      ("int_to_json", f_primitive_to_json); ("float_to_json", f_primitive_to_json);
      ("get_executing_line", f_get_executing_line) ]%string) ;;;
  host n (HMacro (text_of "json")) ;;;
  bind_all n (funs [ ("debug_break", f_debug_break) ]%string).
End Bind.
