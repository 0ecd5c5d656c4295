(** * The standard library's arrays and dicts as the program sees them:
    /repo/tiny/src/std.c:183-450

    The host's memory is a list of blocks, each an Array (Array.v) or a Dict
    (Dict.v); the address of the block at index [i] is [i + 1] (0 is NULL).
    Blocks are never given back here, so an address is never reused: the
    finalizers (std.c:183-188, 353-357), which run when the native that owns the
    block is gone, do nothing.  Natives carry property 1 = [ArrayProp], 2 =
    [PrimitiveArrayProp], 3 = [DictProp]; passing a native with another property
    (or no native) reads unrelated memory and is undefined.

    [strict]: with [true] two uses the collector cannot cope with are made
    undefined at the call that does them (they crash later, if at all, in the C
    code): reading an object out of a primitive array, and growing a non-empty
    array by resize.  [false] is the code. *)
From Verif Require Import Base Float64 Values Heap Code VM Array Dict Std.
Local Open Scope Z_scope.

Inductive cell := CArr (a : array) | CDict (d : dict).
Definition store := list cell.

Definition cell_at (w : store) (a : Z) : option cell :=
  if a <=? 0 then None else nth_error w (Z.to_nat a - 1).
Definition set_cell (w : store) (a : Z) (c : cell) : store := update w (Z.to_nat a - 1) c.

(** ** What the collector is shown *)

(** std.c:190-196 [ArrayMark]; cells never written are skipped (reading them is
    undefined) *)
Definition array_kids (a : array) : list value :=
  flat_map (fun i => match array_get a (Z.of_nat i) with Ok v => [v] | _ => [] end) (seq 0 (sb_count a)).
(** std.c:340-351 [DictProtectFromGC]; likewise *)
Definition dict_kids (d : dict) : list value :=
  flat_map (fun i => match dkey d i with
                     | Ok k => if is_null k then []
                               else k :: match dval d i with Ok v => [v] | _ => [] end
                     | _ => [] end) (seq 0 (d_buckets d)).

(** std.c:198-209, 359-363 *)
Definition lib_natives : natives store := mkNatives store
  (fun p w a =>
     match p, cell_at w a with
     | 1%nat, Some (CArr x) => array_kids x
     | 3%nat, Some (CDict d) => dict_kids d
     | _, _ => []
     end)
  (fun _ w _ => w).

Section Boxes.
Variable strict : bool.
Variable place : nat -> Z.

Notation prog := (fprog store).

(** A new block and the native that owns it *)
Definition new_box (c : cell) (p : nat) : prog :=
  FHost (fun w => FSetHost (w ++ [c]) (FNewNative (Z.of_nat (S (length w))) p FRet)).

(** [Array *array = Tiny_ToAddr(args[0])] *)
Definition with_array (v : value) (k : nat -> Z -> array -> store -> prog) : prog :=
  match v with
  | VNative _ =>
      FObj v (fun b => match b with
        | BNative a p =>
            if (p =? 1)%nat || (p =? 2)%nat then
              FHost (fun w => match cell_at w a with Some (CArr x) => k p a x w | _ => FUB end)
            else FUB
        | _ => FUB
        end)
  | _ => FUB
  end.

Definition answer (p : nat) (r : ares) : prog :=
  match r with
  | RUnit => FRet VNull
  | RLen n => FRet (new_int (Z.of_nat n))
  | RVal v => if strict && (p =? 2)%nat && (if ref_of v then true else false) then FUB else FRet v
  end.

Definition grows_used (x : array) (o : aop) : bool :=
  match o with AResize n _ => (0 <? sb_count x)%nat && (Z.of_nat (sb_count x) <? n) | _ => false end.

Definition array_call (args : list value) (o : aop) : prog :=
  arg args 0 (fun v => with_array v (fun p a x w =>
  if strict && grows_used x o then FUB else
  attempt (array_step x o) (fun '(x', r) => FSetHost (set_cell w a (CArr x')) (answer p r)))).

(** std.c:211-226 [CreateArray], [CreatePrimitiveArray]; the memcpy stores the
    values [InitArrayEx] just stored *)
Definition create_array (args : list value) : prog :=
  attempt (init_array_ex args) (fun x => new_box (CArr x) 1).
Definition create_primitive_array (args : list value) : prog :=
  attempt (init_array_ex args) (fun x => new_box (CArr x) 2).

(** std.c:228-318 *)
Definition lib_array_len (args : list value) : prog := array_call args ALen.
Definition lib_array_clear (args : list value) : prog := array_call args AClear.
Definition lib_array_push (args : list value) : prog :=
  arg args 1 (fun v => array_call args (APush v)).
Definition lib_array_get (args : list value) : prog :=
  arg args 1 (fun i => array_call args (AGet (wrap32 (to_int i)))).
Definition lib_array_set (args : list value) : prog :=
  arg args 1 (fun i => arg args 2 (fun v => array_call args (ASet (wrap32 (to_int i)) v))).
Definition lib_array_pop (args : list value) : prog := array_call args APop.
Definition lib_array_shift (args : list value) : prog := array_call args AShift.
Definition lib_array_remove (args : list value) : prog :=
  arg args 1 (fun i => array_call args (ARemove (wrap32 (to_int i)))).
Definition lib_array_insert (args : list value) : prog :=
  arg args 1 (fun i => arg args 2 (fun v => array_call args (AInsert (wrap32 (to_int i)) v))).

Definition lib_array_resize (args : list value) : prog :=
  arg args 1 (fun n => attempt (number_to_int n) (fun n => array_call args (AResize n VNull))).
Definition lib_array_resize_fill (args : list value) : prog :=
  arg args 1 (fun n => arg args 2 (fun v => attempt (number_to_int n) (fun n => array_call args (AResize n v)))).

(** std.c:320-336 [CompareInts], [Lib_ArraySortInt].  qsort compares every
    element at least once when there are two; which pairs it compares is its own
    business, so a difference of any two elements that does not fit an int counts
    as undefined.  Otherwise the comparison is the order of the integers and
    qsort leaves them sorted. *)
Definition as_int (v : value) : option Z := match v with VInt i => Some i | _ => None end.
Fixpoint as_ints (l : list value) : option (list Z) :=
  match l with
  | [] => Some []
  | v :: l' => match as_int v, as_ints l' with Some i, Some is => Some (i :: is) | _, _ => None end
  end.
Fixpoint insert_int (z : Z) (l : list Z) : list Z :=
  match l with
  | [] => [z]
  | y :: l' => if z <=? y then z :: y :: l' else y :: insert_int z l'
  end.
Definition sort_ints (l : list Z) : list Z := fold_right insert_int [] l.
Definition comparable (l : list Z) : bool :=
  forallb (fun a => forallb (fun b => in_int32 (a - b)) l) l.

Fixpoint read_all (x : array) (i n : nat) : outcome (list value) :=
  match n with
  | O => Ok []
  | S n' => (v <- array_get x (Z.of_nat i) ;; r <- read_all x (S i) n' ;; Ok (v :: r))%outcome
  end.
Definition array_sort (x : array) : outcome array :=
  if (sb_count x <? 2)%nat then Ok x else
  match x with
  | None => UB
  | Some b =>
      (vs <- read_all x 0 (sb_n b) ;;
       match as_ints vs with
       | None => Abort
       | Some is =>
           if comparable is
           then b' <- write_cells b 0 (map VInt (sort_ints is)) ;; Ok (Some b')
           else UB
       end)%outcome
  end.
Definition lib_array_sort (args : list value) : prog :=
  arg args 0 (fun v => with_array v (fun p a x w =>
  attempt (array_sort x) (fun x' => FSetHost (set_cell w a (CArr x')) (FRet VNull)))).

(** ** Dicts *)

(** The strings and natives among [vs], as a heap; the C code reads those it
    compares or hashes, here all of them are read beforehand. *)
Fixpoint with_objects (vs : list value) (h : heap) (k : heap -> prog) : prog :=
  match vs with
  | [] => k h
  | v :: vs' =>
      match v with
      | VStr id | VNative id => FObj v (fun b => with_objects vs' (h ++ [mkObj id false b]) k)
      | _ => with_objects vs' h k
      end
  end.

Definition dict_keys_of (d : dict) : list value :=
  flat_map (fun i => match dkey d i with Ok k => if is_null k then [] else [k] | _ => [] end) (seq 0 (d_buckets d)).

(** [Dict *dict = args[0].obj->nat.addr] *)
Definition with_dict (v : value) (k : Z -> dict -> store -> prog) : prog :=
  match v with
  | VNative _ =>
      FObj v (fun b => match b with
        | BNative a p =>
            if (p =? 3)%nat then
              FHost (fun w => match cell_at w a with Some (CDict d) => k a d w | _ => FUB end)
            else FUB
        | _ => FUB
        end)
  | _ => FUB
  end.

Definition op_keys (o : dop) : list value :=
  match o with DSet k _ | DGet k | DRemove k => [k] | DClear => [] end.

Definition dict_call (args : list value) (o : dop) (k : dres -> prog) : prog :=
  arg args 0 (fun v => with_dict v (fun a d w =>
  with_objects (op_keys o ++ dict_keys_of d) [] (fun h =>
  attempt (dict_step place h d o) (fun '(d', r) => FSetHost (set_cell w a (CDict d')) (k r))))).

(** std.c:376 *)
Fixpoint pairs_of (args : list value) : option (list (value * value)) :=
  match args with
  | [] => Some []
  | k :: v :: args' => match pairs_of args' with Some l => Some ((k, v) :: l) | None => None end
  | [_] => None
  end.
Fixpoint set_pairs (h : heap) (d : dict) (l : list (value * value)) : outcome dict :=
  match l with
  | [] => Ok d
  | (k, v) :: l' => (d' <- dict_set place h d k v ;; set_pairs h d' l')%outcome
  end.
(** std.c:365-380 [CreateDict] *)
Definition create_dict (args : list value) : prog :=
  match pairs_of args with
  | None => FAbort
  | Some l =>
      with_objects (map fst l) [] (fun h =>
      attempt (d <- init_dict ;; set_pairs h d l)%outcome (fun d => new_box (CDict d) 3))
  end.

(** std.c:382-414 *)
Definition lib_dict_put (args : list value) : prog :=
  arg args 1 (fun k => arg args 2 (fun v => dict_call args (DSet k v) (fun _ => FRet VNull))).
Definition lib_dict_exists (args : list value) : prog :=
  arg args 1 (fun k => dict_call args (DGet k) (fun r =>
    FRet (VBool (match r with DFound _ => true | _ => false end)))).
Definition lib_dict_get (args : list value) : prog :=
  arg args 1 (fun k => dict_call args (DGet k) (fun r =>
    FRet (match r with DFound v => v | _ => VNull end))).
Definition lib_dict_remove (args : list value) : prog :=
  arg args 1 (fun k => dict_call args (DRemove k) (fun _ => FRet VNull)).
Definition lib_dict_clear (args : list value) : prog := dict_call args DClear (fun _ => FRet VNull).

Fixpoint push_all (x : array) (vs : list value) : outcome array :=
  match vs with
  | [] => Ok x
  | v :: vs' => (x' <- array_push x v ;; push_all x' vs')%outcome
  end.
(** std.c:416-450 [Lib_DictKeys], [Lib_DictValues] *)
Definition dict_list (args : list value) (pick : value * value -> value) : prog :=
  arg args 0 (fun v => with_dict v (fun a d w =>
  attempt (l <- dict_enum d ;; push_all init_array (map pick l))%outcome (fun x => new_box (CArr x) 1))).
Definition lib_dict_keys (args : list value) : prog := dict_list args fst.
Definition lib_dict_values (args : list value) : prog := dict_list args snd.

(** std.c:876-971: everything the array macro and [Tiny_BindStandardDict] bind *)
Definition lib_functions : list (list value -> prog) :=
  [ create_array; create_primitive_array; lib_array_len; lib_array_clear; lib_array_push;
    lib_array_get; lib_array_set; lib_array_pop; lib_array_shift; lib_array_remove;
    lib_array_insert; lib_array_resize; lib_array_resize_fill; lib_array_sort;
    create_dict; lib_dict_put; lib_dict_exists; lib_dict_get; lib_dict_remove; lib_dict_clear;
    lib_dict_keys; lib_dict_values ].
End Boxes.
