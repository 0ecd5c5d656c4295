(** * When two values are the same, for a user *)
From Verif Require Import Base Float64 Values.

(** The value can be dereferenced: its object is alive and of its kind. *)
Definition live (h : heap) (v : value) : Prop :=
  match v with
  | VStr id => exists m s, hget h id = Some (mkObj id m (BStr s))
  | VNative id => exists m a p, hget h id = Some (mkObj id m (BNative a p))
  | VStruct id => exists m fs, hget h id = Some (mkObj id m (BStruct fs))
  | _ => True
  end.

(** The text of a string value, constant or allocated. *)
Inductive text_of_value (h : heap) : value -> text -> Prop :=
| tv_const s : text_of_value h (VCStr s) s
| tv_heap id m s : hget h id = Some (mkObj id m (BStr s)) -> text_of_value h (VStr id) s.

Definition nul_free (s : text) : Prop := ~ In "000"%char s.

(** Sameness: strings by text whatever their storage, natives by the address
    they wrap, structs by identity, numbers by value and never across kinds. *)
Inductive same_value (h : heap) : value -> value -> Prop :=
| same_null : same_value h VNull VNull
| same_bool b : same_value h (VBool b) (VBool b)
| same_int i : same_value h (VInt i) (VInt i)
| same_float x y : feqb x y = true -> same_value h (VFloat x) (VFloat y)
| same_text a b s : text_of_value h a s -> text_of_value h b s -> same_value h a b
| same_native i j mi mj ad p q :
    hget h i = Some (mkObj i mi (BNative ad p)) ->
    hget h j = Some (mkObj j mj (BNative ad q)) ->
    same_value h (VNative i) (VNative j)
| same_light a : same_value h (VLight a) (VLight a)
| same_struct i : same_value h (VStruct i) (VStruct i).
