(** * Dictionaries: /repo/tiny/src/dict.c

    Open addressing with linear probing over two arrays (Array.v).  The
    functions take the heap in force when they are called (string keys are
    compared and hashed through it) and the machine addresses [place] of
    objects.  [Fuel] stands for "does not terminate". *)
From Verif Require Import Base Values Array.
Local Open Scope nat_scope.

(** dict.h:6-9 *)
Record dict := mkDict { d_buckets : nat; d_filled : nat; d_keys : array; d_values : array }.

Section WithHeap.
Variable place : nat -> Z.
Variable h : heap.

(** dict.c:46-57 [Init] *)
Definition init_dict_n (n : nat) : outcome dict :=
  (ks <- array_resize init_array (Z.of_nat n) VNull ;;
   vs <- array_resize init_array (Z.of_nat n) VNull ;;
   Ok (mkDict n 0 ks vs))%outcome.

(** dict.c:7, 80 [InitDict] *)
Definition init_dict : outcome dict := init_dict_n 32.

Definition dkey (d : dict) (i : nat) : outcome value := array_get (d_keys d) (Z.of_nat i).
Definition dval (d : dict) (i : nat) : outcome value := array_get (d_values d) (Z.of_nat i).

Definition put_key (d : dict) (i : nat) (k : value) : outcome dict :=
  (ks <- array_set (d_keys d) (Z.of_nat i) k ;;
   Ok (mkDict (d_buckets d) (d_filled d) ks (d_values d)))%outcome.

Definition put_val (d : dict) (i : nat) (v : value) : outcome dict :=
  (vs <- array_set (d_values d) (Z.of_nat i) v ;;
   Ok (mkDict (d_buckets d) (d_filled d) (d_keys d) vs))%outcome.

Definition set_filled (d : dict) (n : nat) : dict :=
  mkDict (d_buckets d) n (d_keys d) (d_values d).

(** dict.c: [hash % dict->bucketCount]; a zero bucket count divides by zero *)
Definition home (d : dict) (hash : Z) : outcome nat :=
  if d_buckets d =? 0 then UB else Ok (Z.to_nat (hash mod Z.of_nat (d_buckets d))).

(** dict.c:64-72, the loop of [Grow]: [n] buckets from [i]; [set] is [DictSet] *)
Fixpoint grow_loop (set : dict -> value -> value -> outcome dict)
    (d nd : dict) (i n : nat) : outcome dict :=
  match n with
  | O => Ok nd
  | S n' =>
      (k <- dkey d i ;;
       nd' <- (if is_null k then Ok nd
               else v <- dval d i ;; set nd k v) ;;
       grow_loop set d nd' (S i) n')%outcome
  end.

(** dict.c:59-78 [Grow] *)
Definition grow_with (set : dict -> value -> value -> outcome dict) (d : dict) : outcome dict :=
  (nd <- init_dict_n (2 * d_buckets d) ;;
   grow_loop set d nd 0 (d_buckets d))%outcome.

(** dict.c:97-129, the probe loop of [DictSet] and the final stores *)
Fixpoint probe_set (grow : dict -> outcome dict) (n : nat) (d : dict) (hash : Z)
    (idx origin : nat) (k v : value) : outcome dict :=
  match n with
  | O => Fuel
  | S n' =>
      (prev <- dkey d idx ;;
       if is_null prev then
         d1 <- put_key d idx k ;;
         put_val (set_filled d1 (S (d_filled d1))) idx v
       else
         eq <- values_equal h prev k ;;
         if eq : bool then put_val d idx v
         else
           let idx' := (idx + 1) mod d_buckets d in
           if idx' =? origin then
             d1 <- grow d ;;
             i <- home d1 hash ;;
             probe_set grow n' d1 hash i i k v
           else probe_set grow n' d hash idx' origin k v)%outcome
  end.

(** dict.c:87-130 [DictSet]; [depth] bounds the nesting DictSet/Grow/DictSet *)
Fixpoint dict_set_f (depth : nat) (d : dict) (k v : value) : outcome dict :=
  match depth with
  | O => Fuel
  | S f =>
      (d1 <- (if d_buckets d / 2 <=? d_filled d then grow_with (dict_set_f f) d else Ok d) ;;
       hash <- hash_value place h k ;;
       i <- home d1 hash ;;
       probe_set (grow_with (dict_set_f f)) (S (d_buckets d1)) d1 hash i i k v)%outcome
  end.

Definition dict_set (d : dict) (k v : value) : outcome dict := dict_set_f 3 d k v.

(** dict.c:132-155 [DictGet] *)
Fixpoint get_loop (n : nat) (d : dict) (idx origin : nat) (k : value) : outcome (option value) :=
  match n with
  | O => Fuel
  | S n' =>
      (here <- dkey d idx ;;
       if is_null here then Ok None
       else
         eq <- values_equal h here k ;;
         if eq : bool then v <- dval d idx ;; Ok (Some v)
         else
           let idx' := (idx + 1) mod d_buckets d in
           if idx' =? origin then Ok None else get_loop n' d idx' origin k)%outcome
  end.

Definition dict_get (d : dict) (k : value) : outcome (option value) :=
  (hash <- hash_value place h k ;;
   i <- home d hash ;;
   get_loop (S (d_buckets d)) d i i k)%outcome.

(** dict.c:163-191, the loop of [DictRemove] *)
Fixpoint remove_loop (n : nat) (d : dict) (idx : nat) (k : value) : outcome dict :=
  match n with
  | O => Fuel
  | S n' =>
      (here <- dkey d idx ;;
       if is_null here then Ok d
       else
         eq <- values_equal h here k ;;
         d' <- (if eq : bool then
                  d1 <- put_key d idx VNull ;;
                  Ok (set_filled d1 (d_filled d1 - 1))
                else
                  hh <- hash_value place h here ;;
                  hm <- home d hh ;;
                  if hm =? idx then Ok d
                  else
                    v <- dval d idx ;;
                    d1 <- put_key d idx VNull ;;
                    dict_set (set_filled d1 (d_filled d1 - 1)) here v) ;;
         remove_loop n' d' ((idx + 1) mod d_buckets d') k)%outcome
  end.

(** dict.c:157-192 [DictRemove] *)
Definition dict_remove (d : dict) (k : value) : outcome dict :=
  (hash <- hash_value place h k ;;
   i <- home d hash ;;
   remove_loop (S (d_buckets d)) d i k)%outcome.

End WithHeap.

(** dict.c:195-198, the loop of [DictClear] *)
Fixpoint clear_loop (d : dict) (i n : nat) : outcome dict :=
  match n with
  | O => Ok d
  | S n' =>
      (d1 <- put_key d i VNull ;;
       d2 <- put_val d1 i VNull ;;
       clear_loop d2 (S i) n')%outcome
  end.

(** dict.c:194-201 [DictClear] *)
Definition dict_clear (d : dict) : outcome dict :=
  (d1 <- clear_loop d 0 (d_buckets d) ;; Ok (set_filled d1 0))%outcome.

(** /repo/tiny/src/std.c:423-429 and 441-447, the loops of [Lib_DictKeys] and
    [Lib_DictValues], collecting key and value of each used bucket *)
Fixpoint enum_loop (d : dict) (i n : nat) : outcome (list (value * value)) :=
  match n with
  | O => Ok []
  | S n' =>
      (k <- dkey d i ;;
       if is_null k then enum_loop d (S i) n'
       else v <- dval d i ;; r <- enum_loop d (S i) n' ;; Ok ((k, v) :: r))%outcome
  end.

Definition dict_enum (d : dict) : outcome (list (value * value)) := enum_loop d 0 (d_buckets d).

(** Operations a program performs on a dict (std.c:380-431). *)
Inductive dop := DSet (k v : value) | DGet (k : value) | DRemove (k : value) | DClear.

Inductive dres := DUnit | DFound (v : value) | DAbsent.

Definition dict_step (place : nat -> Z) (h : heap) (d : dict) (o : dop) : outcome (dict * dres) :=
  match o with
  | DSet k v => (d' <- dict_set place h d k v ;; Ok (d', DUnit))%outcome
  | DGet k => (r <- dict_get place h d k ;;
               Ok (d, match r with Some v => DFound v | None => DAbsent end))%outcome
  | DRemove k => (d' <- dict_remove place h d k ;; Ok (d', DUnit))%outcome
  | DClear => (d' <- dict_clear d ;; Ok (d', DUnit))%outcome
  end.

(** A history: each operation runs with the heap of its moment. *)
Fixpoint dict_run (place : nat -> Z) (d : dict) (os : list (heap * dop))
  : outcome (dict * list dres) :=
  match os with
  | [] => Ok (d, [])
  | (h, o) :: os' =>
      (' (d1, r) <- dict_step place h d o ;;
       ' (d2, rs) <- dict_run place d1 os' ;;
       Ok (d2, r :: rs))%outcome
  end.

Example dict_ex :
  match (d <- init_dict ;;
   dict_run (fun _ => 0%Z) d
     [([], DSet (VInt 1) (VInt 10)); ([], DSet (VInt 33) (VInt 20));
      ([], DSet (VCStr (text_of "a")) (VBool true)); ([], DRemove (VInt 1));
      ([], DGet (VInt 33)); ([], DGet (VInt 1)); ([], DGet (VCStr (text_of "a")))])%outcome
  with Ok (_, rs) => rs | _ => [] end
  = [DUnit; DUnit; DUnit; DUnit; DFound (VInt 20); DAbsent; DFound (VBool true)].
Proof. vm_compute. reflexivity. Qed.
