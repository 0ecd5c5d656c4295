(** * The line of a pc, as a user understands it *)
From Verif Require Import Base FileLine.
Local Open Scope Z_scope.

(** Code only grows, so the records of a compile are made at increasing pcs. *)
Fixpoint increasing (h : list pcline) : Prop :=
  match h with
  | r :: (s :: _) as t => pl_pc r <= pl_pc s /\ increasing t
  | _ => True
  end.

(** The record in force at [pc]: the last one made at or before it. *)
Definition in_force (h : list pcline) (pc : Z) : option pcline :=
  last (map Some (filter (fun r => pl_pc r <=? pc) h)) None.

(** The table after a history of records. *)
Definition table (h : list pcline) : list pcline := fold_left add_record h [].
