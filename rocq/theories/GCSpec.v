(** * Reachability: which objects a program can still get at *)
From Verif Require Import Base Values Heap.
Local Open Scope nat_scope.

Section Spec.
Context {H : Type} (N : natives H) (host : H) (h : heap).

(** An object gives access to the fields of a struct and to the values a native
    passes to the collector; strings and natives without a property to none. *)
Inductive gives : obody -> value -> Prop :=
| gives_field fs v : In v fs -> gives (BStruct fs) v
| gives_native a p v : p <> 0 -> In v (n_children N p host a) -> gives (BNative a p) v.

(** [edge id id']: the live object [id] gives access to object [id']. *)
Definition edge (id id' : nat) : Prop :=
  exists o v, hget h id = Some o /\ gives (o_body o) v /\ ref_of v = Some id'.

Inductive reachable (roots : list value) : nat -> Prop :=
| reach_root v id : In v roots -> ref_of v = Some id -> reachable roots id
| reach_edge id id' : reachable roots id -> edge id id' -> reachable roots id'.

(** No reachable pointer dangles. *)
Definition all_alive (roots : list value) : Prop :=
  forall id, reachable roots id -> hget h id <> None.

(** A reachable object that can be reached from itself. *)
Inductive path : nat -> nat -> Prop :=
| path_one a b : edge a b -> path a b
| path_cons a b c : edge a b -> path b c -> path a c.
Definition reachable_cycle (roots : list value) : Prop :=
  exists id, reachable roots id /\ path id id.

(** A heap between two collections: distinct objects, none marked. *)
Definition heap_ok : Prop :=
  NoDup (map o_id h) /\ Forall (fun o => o_mark o = false) h.
End Spec.

(** [keeps P l l']: [l'] is the sublist of [l] of the elements with [P]. *)
Inductive keeps {A} (P : A -> Prop) : list A -> list A -> Prop :=
| keeps_nil : keeps P [] []
| keeps_yes x l l' : P x -> keeps P l l' -> keeps P (x :: l) (x :: l')
| keeps_no x l l' : ~ P x -> keeps P l l' -> keeps P (x :: l) l'.

(** Finalizing a list of objects, in order. *)
Definition finalize_all {H} (N : natives H) (w : H) (l : list obj) : H :=
  fold_left (fun w o => match o_body o with
                        | BNative a p => if p =? 0 then w else n_finalize N p w a
                        | _ => w
                        end) l w.
