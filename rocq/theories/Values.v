(** * Values, objects and the heap of a thread

    /repo/tiny/include/tiny.h:124-135 [Tiny_Value],
    /repo/tiny/include/detail.h:13-39 [Tiny_Object].

    An object pointer is represented by a number that is never reused
    ([o_id]); dereferencing a number that is not in the heap any more is a use
    after free, hence [UB].  The heap is the [gcHead] list, newest first. *)
From Verif Require Import Base Float64.

Inductive value : Type :=
| VNull
| VBool (b : bool)
| VInt (i : Z)          (* Tiny_Int, 64 bit *)
| VFloat (bits : Z)     (* Tiny_Float as its bit pattern, see Float64.v *)
| VStr (id : nat)       (* TINY_VAL_STRING: object pointer *)
| VCStr (s : text)      (* TINY_VAL_CONST_STRING: the NUL-terminated text *)
| VNative (id : nat)    (* TINY_VAL_NATIVE: object pointer *)
| VLight (addr : Z)     (* TINY_VAL_LIGHT_NATIVE *)
| VStruct (id : nat).   (* TINY_VAL_STRUCT: object pointer *)

(** detail.h:20-38, the union of an object *)
Inductive obody : Type :=
| BStr (s : text)                   (* string.len characters at string.ptr *)
| BNative (addr : Z) (prop : nat)   (* nat.addr, nat.prop *)
| BStruct (fields : list value).    (* ostruct.n = length fields *)

Record obj := mkObj { o_id : nat; o_mark : bool; o_body : obody }.

Definition heap := list obj.

Fixpoint hget (h : heap) (id : nat) : option obj :=
  match h with
  | [] => None
  | o :: h' => if Nat.eqb (o_id o) id then Some o else hget h' id
  end.

Fixpoint hset (h : heap) (id : nat) (f : obj -> obj) : heap :=
  match h with
  | [] => []
  | o :: h' => if Nat.eqb (o_id o) id then f o :: h' else o :: hset h' id f
  end.

(** The pointer an object value carries (tiny.c:120-123 [IsObject]). *)
Definition ref_of (v : value) : option nat :=
  match v with
  | VStr i | VNative i | VStruct i => Some i
  | _ => None
  end.

(** C string functions see a string up to its first NUL. *)
Fixpoint until_nul (s : text) : text :=
  match s with
  | [] => []
  | c :: s' => if Ascii.eqb c "000" then [] else c :: until_nul s'
  end.

(** strncmp(a, b, n) == 0 where both texts have at least [n] characters before
    the end of their allocation or a NUL terminator after their end. *)
Fixpoint strncmp_eq (a b : text) (n : nat) : bool :=
  match n with
  | O => true
  | S n' =>
      match a, b with
      | [], [] => true
      | [], y :: _ => Ascii.eqb y "000"
      | x :: _, [] => Ascii.eqb x "000"
      | x :: a', y :: b' =>
          if Ascii.eqb x y
          then if Ascii.eqb x "000" then true else strncmp_eq a' b' n'
          else false
      end
  end.

(** tiny.c:167-179 [Tiny_ToString] with [Tiny_StringLen]: the characters and
    the length the library sees.  [Ok None] = not a string (NULL / 0). *)
Definition str_content (h : heap) (v : value) : outcome (option text) :=
  match v with
  | VCStr s => Ok (Some (until_nul s))
  | VStr id =>
      match hget h id with
      | Some (mkObj _ _ (BStr s)) => Ok (Some s)
      | _ => UB
      end
  | _ => Ok None
  end.

(** tiny.c:181-186 [Tiny_ToAddr]; NULL is 0. *)
Definition to_addr (h : heap) (v : value) : outcome Z :=
  match v with
  | VLight a => Ok a
  | VNative id =>
      match hget h id with
      | Some (mkObj _ _ (BNative a _)) => Ok a
      | _ => UB
      end
  | _ => Ok 0
  end.

(** tiny.c:228-254: the two string branches. *)
Definition str_equal (sa sb : text) : bool :=
  if Nat.eqb (length sa) (length sb) then strncmp_eq sa sb (length sa) else false.

(** tiny.c:200-257 [Tiny_AreValuesEqual]; the shortcut of line 243 on equal
    [cstr] pointers agrees with the comparison of contents. *)
Definition values_equal (h : heap) (a b : value) : outcome bool :=
  match a, b with
  | VNull, VNull => Ok true
  | VBool x, VBool y => Ok (Bool.eqb x y)
  | VInt x, VInt y => Ok (x =? y)
  | VFloat x, VFloat y => Ok (feqb x y)
  | VNative _, VNative _ =>
      match to_addr h a, to_addr h b with
      | Ok x, Ok y => Ok (x =? y)
      | _, _ => UB
      end
  | VLight x, VLight y => Ok (x =? y)
  | VStruct i, VStruct j => Ok (Nat.eqb i j)
  | VStr _, VStr _ | VStr _, VCStr _ | VCStr _, VStr _ | VCStr _, VCStr _ =>
      match str_content h a, str_content h b with
      | Ok (Some x), Ok (Some y) => Ok (str_equal x y)
      | _, _ => UB
      end
  | _, _ => Ok false
  end.

(** dict.c:10-17 [HashBytes]: djb2 over 64-bit unsigned long, [c] a signed
    char widened to int, stopping at a NUL. *)
Fixpoint hash_bytes (acc : Z) (s : text) : Z :=
  match s with
  | [] => acc
  | c :: s' =>
      if Ascii.eqb c "000" then acc
      else hash_bytes ((acc * 33 + char_val c) mod 2^64) s'
  end.

(** dict.c:19-44 [HashValue].  [place] gives the machine address of an object;
    nothing is assumed about it. *)
Definition hash_value (place : nat -> Z) (h : heap) (v : value) : outcome Z :=
  match v with
  | VBool b => Ok (if b then 2 else 1)
  | VInt i => Ok (i mod 2^64)
  | VStr _ | VCStr _ =>
      match str_content h v with
      | Ok (Some s) => Ok (hash_bytes 5381 s)
      | _ => UB
      end
  | VStruct id => Ok (place id mod 2^64)
  | VNull | VFloat _ | VNative _ | VLight _ =>
      match to_addr h v with
      | Ok a => if a =? 0 then Abort else Ok (a mod 2^64)
      | _ => UB
      end
  end.

Definition is_null (v : value) : bool := match v with VNull => true | _ => false end.
