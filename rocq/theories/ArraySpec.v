(** * What an array is, to a user: a list.

    Independent of the implementation model except for the names of the
    operations ([aop]) and of their results ([ares]). *)
From Verif Require Import Base Values Array.
Local Open Scope nat_scope.

Definition in_range (l : list value) (i : Z) : bool :=
  (0 <=? i)%Z && (i <? Z.of_nat (length l))%Z.

(** One operation on a list; [None] = the program is aborted (index out of
    range, empty array, negative length). *)
Definition list_step (l : list value) (o : aop) : option (list value * ares) :=
  match o with
  | APush v => Some (l ++ [v], RUnit)
  | APop => match rev l with [] => None | x :: r => Some (rev r, RVal x) end
  | AShift => match l with [] => None | x :: r => Some (r, RVal x) end
  | AInsert i v =>
      if in_range l i then
        Some (firstn (Z.to_nat i) l ++ v :: skipn (Z.to_nat i) l, RUnit)
      else None
  | ARemove i =>
      if in_range l i then
        Some (firstn (Z.to_nat i) l ++ skipn (S (Z.to_nat i)) l, RUnit)
      else None
  | ASet i v =>
      if in_range l i then
        Some (firstn (Z.to_nat i) l ++ v :: skipn (S (Z.to_nat i)) l, RUnit)
      else None
  | AGet i =>
      if in_range l i then
        match nth_error l (Z.to_nat i) with Some v => Some (l, RVal v) | None => None end
      else None
  | AResize n v =>
      if (n <? 0)%Z then None
      else Some (firstn (Z.to_nat n) l ++ repeat v (Z.to_nat n - length l), RUnit)
  | AClear => Some ([], RUnit)
  | ALen => Some (l, RLen (length l))
  end.

Fixpoint list_run (l : list value) (os : list aop) : option (list value * list ares) :=
  match os with
  | [] => Some (l, [])
  | o :: os' =>
      match list_step l o with
      | None => None
      | Some (l1, r) =>
          match list_run l1 os' with
          | None => None
          | Some (l2, rs) => Some (l2, r :: rs)
          end
      end
  end.

(** The uses the code supports: growing by [AResize] only from length zero;
    [AClear] and shrinking only once the array has ever held storage
    ([touched]: it was created from a literal list, or pushed to, or grown). *)
Definition op_supported (touched : bool) (l : list value) (o : aop) : bool :=
  match o with
  | AResize n _ =>
      (n <? 0)%Z
      || (if (n <=? Z.of_nat (length l))%Z then touched else Nat.eqb (length l) 0)
  | AClear => touched
  | _ => true
  end.

Definition op_touches (touched : bool) (l : list value) (o : aop) : bool :=
  match o with
  | APush _ => true
  | AResize n _ => touched || (0 <? n)%Z
  | _ => touched
  end.

Fixpoint history_supported (touched : bool) (l : list value) (os : list aop) : bool :=
  match os with
  | [] => true
  | o :: os' =>
      op_supported touched l o &&
      match list_step l o with
      | None => true
      | Some (l1, _) => history_supported (op_touches touched l o) l1 os'
      end
  end.

(** The elements an array shows its user: what [AGet] answers at each index. *)
Definition shows (a : array) (l : list value) : Prop :=
  array_step a ALen = Ok (a, RLen (length l)) /\
  forall i v, nth_error l i = Some v -> array_step a (AGet (Z.of_nat i)) = Ok (a, RVal v).

(** What reading index [i] gives; [None]: the cell was never written, or out of range. *)
Definition seen (a : array) (i : nat) : option value :=
  match array_step a (AGet (Z.of_nat i)) with Ok (_, RVal v) => Some v | _ => None end.

(** The longest the list gets during a history. *)
Fixpoint list_peak (l : list value) (os : list aop) : nat :=
  match os with
  | [] => length l
  | o :: os' =>
      match list_step l o with
      | None => length l
      | Some (l1, _) => Nat.max (length l) (list_peak l1 os')
      end
  end.
