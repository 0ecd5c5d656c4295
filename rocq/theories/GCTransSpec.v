(** * What it takes for the collector to be invisible *)
From Verif Require Import Base Values Code Heap GCSpec VM VMSpec.
Local Open Scope nat_scope.

Section Spec.
Context {H : Type} (M : machine H).

(** ** States a run without collection passes through *)

(** Running [p] from [t] makes the call [f a] from state [t']. *)
Inductive passes (poll : nat -> nat -> bool) : fprog H -> thread H -> Z -> list value -> thread H -> Prop :=
| ps_now f a k t : passes poll (FCall f a k) t f a t
| ps_after f a k t v t1 g b t2 : calls M poll t f a (Ok (v, t1)) -> passes poll (k v) t1 g b t2 ->
    passes poll (FCall f a k) t g b t2
| ps_host k t g b t2 : passes poll (k (t_host t)) t g b t2 -> passes poll (FHost k) t g b t2
| ps_set w k t g b t2 : passes poll k (with_host t w) g b t2 -> passes poll (FSetHost w k) t g b t2
| ps_obj v k t id o g b t2 : ref_of v = Some id -> hget (t_heap t) id = Some o ->
    passes poll (k (o_body o)) t g b t2 -> passes poll (FObj v k) t g b t2
| ps_str s k t g b t2 : passes poll (k (VStr (fst (alloc t (BStr s))))) (snd (alloc t (BStr s))) g b t2 ->
    passes poll (FNewStr s k) t g b t2
| ps_nat a p k t g b t2 :
    passes poll (k (VNative (fst (alloc t (BNative a p))))) (snd (alloc t (BNative a p))) g b t2 ->
    passes poll (FNewNative a p k) t g b t2
| ps_getg i k t v g b t2 : get_global M t i = Ok v -> passes poll (k v) t g b t2 ->
    passes poll (FGetGlobal i k) t g b t2
| ps_setg i v k t t1 g b t2 : set_global M t i v = Ok t1 -> passes poll k t1 g b t2 ->
    passes poll (FSetGlobal i v k) t g b t2.

Definition going (floor : option nat) (t : thread H) : Prop :=
  match floor with Some fc => fc < length (t_frames t) | None => True end.

(** [visits floor t s]: running [t] (until the call depth is [floor]) completes
    an instruction in state [s], possibly inside a call made by a foreign
    function. *)
Inductive visits (poll : nat -> nat -> bool) : option nat -> thread H -> thread H -> Prop :=
| vis_here floor t t1 : going floor t -> cycles M poll t (Ok (true, t1)) -> visits poll floor t t1
| vis_next floor t t1 s : going floor t -> cycles M poll t (Ok (true, t1)) ->
    visits poll floor t1 s -> visits poll floor t s
| vis_call floor t n k nx fn f a t0 t1 s : going floor t -> at_instr M t (ICallF n k) nx ->
    nth_error (m_foreign M) (Z.to_nat k) = Some fn ->
    passes poll (fn (top_args (t_stk t) (Z.to_nat n))) (with_pc t nx) f a t0 ->
    enter_call M t0 f a = Ok t1 -> visits poll (Some (length (t_frames t0))) t1 s ->
    visits poll floor t s.

Definition has_cycle (s : thread H) : Prop :=
  reachable_cycle (m_natives M) (t_host s) (t_heap s) (root_values M s).

(** ** Foreign functions that respect the collector *)

(** Calling [f] with [a] leaves the caller's stack alone (true of compiled
    functions called with all their arguments). *)
Definition keeps_stack (f : Z) (a : list value) : Prop :=
  forall t v t', calls M no_poll t f a (Ok (v, t')) -> t_stk t' = t_stk t.

(** Every object among [vs] is among [known]. *)
Definition known_refs (vs known : list value) : Prop :=
  forall v, In v vs -> ref_of v = None \/ In v known.

(** [respects w args known fresh p]: [p], started when the host's memory is
    [w], only uses objects it may hold: its arguments, what it created or read
    since its last call back into Tiny, the result of that call.  Values it puts
    in the host's memory where a native shows them to the collector are such
    objects too.  It calls back at most once ([fresh] = not yet): see
    [two_callbacks_refuted]. *)
Inductive respects : H -> list value -> list value -> bool -> fprog H -> Prop :=
| rs_ret w args K r v : known_refs [v] K -> respects w args K r (FRet v)
| rs_abort w args K r : respects w args K r FAbort
| rs_ub w args K r : respects w args K r FUB
| rs_host w args K r k : respects w args K r (k w) -> respects w args K r (FHost k)
| rs_set w args K r w' k :
    (forall p a v, In v (n_children (m_natives M) p w' a) ->
       ref_of v = None \/ In v K \/ In v (n_children (m_natives M) p w a)) ->
    respects w' args K r k -> respects w args K r (FSetHost w' k)
| rs_obj w args K r v k : In v K ->
    (forall b, respects w args (kids (m_natives M) w b ++ K) r (k b)) ->
    respects w args K r (FObj v k)
| rs_str w args K r s k : (forall id, respects w args (VStr id :: K) r (k (VStr id))) ->
    respects w args K r (FNewStr s k)
| rs_nat w args K r a p k : known_refs (kids (m_natives M) w (BNative a p)) K ->
    (forall id, respects w args (VNative id :: K) r (k (VNative id))) ->
    respects w args K r (FNewNative a p k)
| rs_getg w args K r i k : (forall v, respects w args (v :: K) r (k v)) ->
    respects w args K r (FGetGlobal i k)
| rs_setg w args K r i v k : known_refs [v] K -> respects w args K r k ->
    respects w args K r (FSetGlobal i v k)
| rs_call w args K f a k keep : known_refs a K ->
    (keep = true -> keeps_stack f a) ->
    (forall w' v, respects w' (if keep then args else []) (v :: if keep then args else []) false (k v)) ->
    respects w args K true (FCall f a k).

Definition foreign_respects : Prop :=
  forall fn w args, In fn (m_foreign M) -> respects w args args true (fn args).

(** Finalizers do nothing the rest of the host can notice. *)
Definition silent_finalizers : Prop := forall p w a, n_finalize (m_natives M) p w a = w.

(** ** Threads that differ by garbage only *)
Definition same_but_garbage (t u : thread H) : Prop :=
  t_pc t = t_pc u /\ t_fp t = t_fp u /\ t_stk t = t_stk u /\ t_frames t = t_frames u /\
  t_ret t = t_ret u /\ t_globs t = t_globs u /\ t_next t = t_next u /\ t_host t = t_host u /\
  (forall id o, hget (t_heap t) id = Some o -> hget (t_heap u) id = Some o).

Definition globals_ready (t : thread H) : Prop :=
  exists g, t_globs t = Some g /\ length g = m_nglobals M.

(** No value the thread holds dangles. *)
Definition no_dangling (t : thread H) : Prop :=
  thread_ok t /\ globals_ready t /\
  all_alive (m_natives M) (t_host t) (t_heap t) (root_values M t).
End Spec.
