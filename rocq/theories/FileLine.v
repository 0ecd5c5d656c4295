(** * Which source line a program counter belongs to

    /repo/tiny/src/tiny.c:3533-3548 [AddPCFileLineRecord] and 3549-3598
    [GetFileLineForPC] / [Tiny_GetExecutingFileLine]. *)
From Verif Require Import Base.
Local Open Scope Z_scope.

(** detail.h:41-45 [Tiny_PCToFileLine] *)
Record pcline := mkPL { pl_pc : Z; pl_file : Z; pl_line : Z }.

(** tiny.c:3533-3547: a record at the pc of the last one replaces it *)
Fixpoint add_record (t : list pcline) (r : pcline) : list pcline :=
  match t with
  | [] => [r]
  | [l] => if pl_pc r =? pl_pc l then [mkPL (pl_pc l) (pl_file r) (pl_line r)] else [l; r]
  | l :: t' => l :: add_record t' r
  end.

(** tiny.c:3561-3584: the loop on [lo], [hi]; [fuel] bounds its turns *)
Fixpoint search (fuel : nat) (t : list pcline) (pc : Z) (lo hi : nat) : outcome nat :=
  match fuel with
  | O => Fuel
  | S f =>
      let cur := ((lo + hi) / 2)%nat in
      if (hi <=? lo + 1)%nat then Ok cur
      else match nth_error t cur with
           | None => UB
           | Some r =>
               if pl_pc r <? pc then search f t pc cur hi
               else if pc <? pl_pc r then search f t pc lo cur
               else Ok cur
           end
  end.

(** tiny.c:3549-3595; the file is an index of the string table ([None] = the
    name pointer stays NULL), [nstrings] is [state->numStrings] *)
Definition file_line (t : list pcline) (nstrings : Z) (pc : Z) : outcome (option Z * Z) :=
  if (pc <? 0) || (length t =? 0)%nat then Ok (None, 0)
  else
    match search (S (length t)) t pc 0 (length t) with
    | Ok i =>
        match nth_error t i with
        | Some r =>
            if 0 <=? pl_file r
            then oassert (pl_file r <? nstrings) (Ok (Some (pl_file r), pl_line r))
            else Ok (None, pl_line r)
        | None => UB
        end
    | Abort => Abort
    | UB => UB
    | Fuel => Fuel
    end.
