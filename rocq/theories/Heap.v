(** * Allocation, marking and sweeping: the collector of a thread

    /repo/tiny/src/tiny.c:98-165 and 638-647.

    [H] is the host's memory: whatever the host program and the native objects
    keep outside Tiny.  A native property ([Tiny_NativeProp], tiny.h:105-110) is
    a number; 0 stands for a NULL [prop].  Its [protectFromGC] callback is
    represented by the list of values it passes to [Tiny_ProtectFromGC] (that is
    all the documentation, tiny.h:107, lets it do) and its [finalize] callback
    by a change of the host's memory.  A property without the callback uses
    [nil] / the identity. *)
From Verif Require Import Base Values.
Local Open Scope nat_scope.

Record natives (H : Type) := mkNatives {
  n_children : nat -> H -> Z -> list value;
  n_finalize : nat -> H -> Z -> H
}.
Arguments n_children {H}.
Arguments n_finalize {H}.

Section Collector.
Context {H : Type} (N : natives H).

(** What an object makes the collector look at next (tiny.c:134-139). *)
Definition kids (host : H) (b : obody) : list value :=
  match b with
  | BStr _ => []
  | BNative a p => if p =? 0 then [] else n_children N p host a
  | BStruct fs => fs
  end.

Definition set_mark (m : bool) (o : obj) : obj := mkObj (o_id o) m (o_body o).

Fixpoint each {A B} (f : B -> A -> outcome B) (l : list A) (b : B) : outcome B :=
  match l with
  | [] => Ok b
  | x :: l' => match f b x with Ok b' => each f l' b' | r => r end
  end.

(** tiny.c:125-142 [Tiny_ProtectFromGC].  The object is marked after its
    children were visited, so the recursion does not end on a cycle: that is
    [Fuel] here (see [collect]). *)
Fixpoint mark (fuel : nat) (host : H) (h : heap) (v : value) : outcome heap :=
  match ref_of v with
  | None => Ok h
  | Some id =>
      match fuel with
      | O => Fuel
      | S f =>
          match hget h id with
          | None => UB
          | Some o =>
              if o_mark o then Ok h
              else match each (mark f host) (kids host (o_body o)) h with
                   | Ok h' => Ok (hset h' id (set_mark true))
                   | r => r
                   end
          end
      end
  end.

(** tiny.c:98-117 [DeleteObject]: what freeing an object does outside the heap *)
Definition delete_object (host : H) (b : obody) : H :=
  match b with
  | BNative a p => if p =? 0 then host else n_finalize N p host a
  | _ => host
  end.

(** tiny.c:146-159 [Sweep]: the survivors unmarked, the host after the
    finalizers, [numObjects] decremented for each freed object *)
Fixpoint sweep (h : heap) (host : H) (n : nat) : heap * H * nat :=
  match h with
  | [] => ([], host, n)
  | o :: h' =>
      if o_mark o then
        let '(h1, host1, n1) := sweep h' host n in (set_mark false o :: h1, host1, n1)
      else sweep h' (delete_object host (o_body o)) (n - 1)
  end.

(** tiny.c:638-647 [MarkAll] on the given roots, in its order. *)
Definition mark_all (fuel : nat) (host : H) (h : heap) (roots : list value) : outcome heap :=
  each (mark fuel host) roots h.

(** Enough fuel for any graph on which the recursion ends (see [mark_fuel_enough]). *)
Definition mark_fuel (h : heap) : nat := S (length h).

(** tiny.c:161-165 [GarbageCollect]: new heap, host, [numObjects] and
    [maxNumObjects].  A recursion that does not end overflows the C stack. *)
Definition collect (h : heap) (host : H) (n : nat) (roots : list value)
  : outcome (heap * H * nat * nat) :=
  match mark_all (mark_fuel h) host h roots with
  | Ok h1 => let '(h2, host2, n2) := sweep h1 host n in Ok (h2, host2, n2, n2 * 2)
  | Abort => Abort
  | _ => UB
  end.

End Collector.
