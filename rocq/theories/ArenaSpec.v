(** * What a bump allocator owes its caller *)
From Verif Require Import Base Arena.
Local Open Scope Z_scope.

(** Requests a C program makes: a power-of-two alignment, a size malloc could
    serve. *)
Definition good_request (r : Z * Z) : Prop :=
  0 <= fst r < 2^62 /\ exists k, 0 <= k <= 61 /\ snd r = 2^k.

(** Block [x] of [size] bytes lies inside a page of the arena. *)
Definition in_page (a : arena) (x : addr) (size : Z) : Prop :=
  exists p, In p (a_pages a) /\ p_id p = fst x /\ 0 <= snd x /\ snd x + size <= p_cap p.

Definition disjoint (x : addr) (sx : Z) (y : addr) (sy : Z) : Prop :=
  fst x <> fst y \/ snd x + sx <= snd y \/ snd y + sy <= snd x.

(** The [i]th request of the history and its answer. *)
Definition answered (rs : list (Z * Z)) (xs : list addr) (i : nat) (size align : Z) (x : addr) : Prop :=
  nth_error rs i = Some (size, align) /\ nth_error xs i = Some x.
