(** * The parser's arena: /repo/tiny/src/arena.c

    A page is named by the order of its allocation (malloc returns storage
    disjoint from every other live block: trusted base); an address is a page
    and an offset into [page->data].  [size_t] arithmetic is modulo 2^64. *)
From Verif Require Import Base.
Local Open Scope Z_scope.

(** arena.h:9-15 [Tiny_ArenaPage] *)
Record page := mkPage { p_id : nat; p_cap : Z; p_used : Z }.

(** arena.h:17-20 [Tiny_Arena]: the [head] list; [a_next] counts the pages
    allocated so far. *)
Record arena := mkArena { a_pages : list page; a_next : nat }.

(** arena.h:7 *)
Definition arena_page_size : Z := 4096.

(** arena.c:37-40 [Tiny_InitArena] *)
Definition init_arena : arena := mkArena [] 0.

(** arena.c:18-35 [NextMultipleOf]; [~x] of a [size_t] is 2^64 - 1 - x *)
Definition next_multiple_of (value factor : Z) : outcome Z :=
  if factor =? 1 then Ok value
  else
    oassert (factor mod 2 =? 0)
      (Ok ((Z.land value (2^64 - 1 - (factor - 1) mod 2^64) + factor) mod 2^64)).

Definition fresh_page (a : arena) (cap used : Z) : page := mkPage (a_next a) cap used.

(** An address handed out: page and offset. *)
Definition addr := (nat * Z)%type.

(** arena.c:42-74 [Tiny_ArenaAlloc] *)
Definition arena_alloc (a : arena) (size align : Z) : outcome (arena * addr) :=
  if arena_page_size <? size then
    let p := fresh_page a size size in
    let pages := match a_pages a with
                 | [] => [p]
                 | hd :: tl => hd :: p :: tl
                 end in
    Ok (mkArena pages (S (a_next a)), (p_id p, 0))
  else
    let new_page :=
      let p := fresh_page a arena_page_size size in
      Ok (mkArena (p :: a_pages a) (S (a_next a)), (p_id p, 0)) in
    match a_pages a with
    | [] => new_page
    | hd :: tl =>
        (n <- next_multiple_of (p_used hd) align ;;
         if p_cap hd <? (n + size) mod 2^64 then new_page
         else
           let used := (n + size) mod 2^64 in
           Ok (mkArena (mkPage (p_id hd) (p_cap hd) used :: tl) (a_next a),
               (p_id hd, (used - size) mod 2^64)))%outcome
    end.

(** arena.c:76-84 [Tiny_DestroyArena]: the pages freed, in order *)
Definition destroy_arena (a : arena) : list nat := map p_id (a_pages a).

(** A history of requests (size, align) and the addresses returned. *)
Fixpoint arena_run (a : arena) (rs : list (Z * Z)) : outcome (arena * list addr) :=
  match rs with
  | [] => Ok (a, [])
  | (size, align) :: rs' =>
      (' (a1, x) <- arena_alloc a size align ;;
       ' (a2, xs) <- arena_run a1 rs' ;;
       Ok (a2, x :: xs))%outcome
  end.
