(** * A host that keeps books on its native objects

    [logged M] is the machine [M] with one addition: the host's memory also
    holds a log, in which [Tiny_NewNative] (tiny.c:328-345) writes [Born] just
    before it makes the object and every finalizer writes [Died] when it is
    entered (tiny.c:98-117).  Foreign functions cannot touch the log. *)
From Verif Require Import Base Values Code Heap GCSpec VM VMSpec.
Local Open Scope nat_scope.

Inductive event := Born (addr : Z) (prop : nat) | Died (addr : Z) (prop : nat).
Definition log := list event.

Fixpoint lift {H} (p : fprog H) : fprog (H * log) :=
  match p with
  | FRet v => FRet v
  | FAbort => FAbort
  | FUB => FUB
  | FHost k => FHost (fun w => lift (k (fst w)))
  | FSetHost h k => FHost (fun w => FSetHost (h, snd w) (lift k))
  | FObj v k => FObj v (fun b => lift (k b))
  | FNewStr s k => FNewStr s (fun v => lift (k v))
  | FNewNative a p k => FNewNative a p (fun v =>
      FHost (fun w => FSetHost (fst w, snd w ++ [Born a p]) (lift (k v))))
  | FGetGlobal i k => FGetGlobal i (fun v => lift (k v))
  | FSetGlobal i v k => FSetGlobal i v (lift k)
  | FCall f args k => FCall f args (fun v => lift (k v))
  end.

Definition logged_natives {H} (N : natives H) : natives (H * log) :=
  mkNatives (H * log) (fun p w a => n_children N p (fst w) a)
    (fun p w a => (n_finalize N p (fst w) a, snd w ++ [Died a p])).

Definition logged {H} (M : machine H) : machine (H * log) :=
  mkMachine (H * log) (m_code M) (m_strings M) (m_fpcs M) (map (fun f args => lift (f args)) (m_foreign M))
    (m_nglobals M) (logged_natives (m_natives M)) (m_stack M) (m_depth M).

(** Every thread some history of API calls leads to, the host's own code being
    logged as well. *)
Inductive lives {H} (M : machine H) (poll : nat -> nat -> bool) : thread (H * log) -> Prop :=
| lives_init w : lives M poll (init_thread (w, []))
| lives_start t : lives M poll t -> lives M poll (start_thread (logged M) t)
| lives_cycle t b t' : lives M poll t -> cycles (logged M) poll t (Ok (b, t')) -> lives M poll t'
| lives_host p t v t' : lives M poll t -> host_does (logged M) poll (lift p) t (Ok (v, t')) -> lives M poll t'.

Lemma event_dec (a b : event) : {a = b} + {a <> b}.
Proof. decide equality; auto using Z.eq_dec, Nat.eq_dec. Defined.

Definition born (a : Z) (p : nat) (l : log) : nat := count_occ event_dec l (Born a p).
Definition died (a : Z) (p : nat) (l : log) : nat := count_occ event_dec l (Died a p).
(** Live native objects with this address and these properties. *)
Definition alive (a : Z) (p : nat) (h : heap) : nat :=
  length (filter (fun o => match o_body o with BNative a' p' => (a' =? a)%Z && (p' =? p) | _ => false end) h).
